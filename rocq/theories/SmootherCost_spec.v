(** The cost that smoothing is meant to lower. *)
From Coq Require Import Reals.
From Verif Require Import Base RealBase Grid_model Coords_model SmootherGrad_spec.
Local Open Scope R_scope.

(** The position of sample [k]. *)
Definition sample {T} (path : list (point * T)) (k : Z) : point :=
  match nth_error path (Z.to_nat k) with Some x => fst x | None => (0, 0) end.

(** The samples with sample [i] moved to [q]. *)
Definition put (X : Z -> point) (i : Z) (q : point) : Z -> point := fun k => if (k =? i)%Z then q else X k.

(** Samples two steps away from the ends and from the cusps. *)
Definition moved (num : Z) (cusp : Z -> bool) (k : Z) : bool :=
  (2 <=? k)%Z && (k <=? num - 3)%Z && forallb (fun j => negb (cusp (k + j)%Z)) [-2; -1; 0; 1; 2]%Z.
Definition from (a : Z) (n : nat) : list Z := map (fun k => (a + Z.of_nat k)%Z) (seq 0 n).
Definition moved_samples (num : Z) (cusp : Z -> bool) : list Z := filter (moved num cusp) (from 0 (Z.to_nat num)).

Definition total_over (l : list Z) (f : Z -> R) : R := fold_right (fun j s => f j + s) 0 l.

(** How much [u] is below or above 0, squared. *)
Definition shortfall (u : R) : R := Rmin u 0 ^ 2.
Definition excess (u : R) : R := Rmax u 0 ^ 2.

Section Cost.
(** Weights of the parts, the bound on the curvature and the distance below which an obstacle counts. *)
Variables w_path w_smooth w_voronoi w_collision w_curvature bound radius : R.
Variable num : Z.
Variable cusp : Z -> bool.
(** The samples before smoothing. *)
Variable original : Z -> point.
(** The obstacle and the Voronoi edge next to a sample, if it is on the map. *)
Variable near : Z -> option (point * point).

(** A sample near an obstacle, and the potential of the Voronoi field with the parameters 20 and 30 of the distance maps. *)
Definition obstacle_cost (o v q : point) : R :=
  w_collision / 2 * shortfall (gap o q - radius)
  + w_voronoi * (20 / (20 + gap o q) * (gap v q / (gap o q + gap v q)) * (shortfall (gap o q - 30) / 30 ^ 2)).
Definition place_cost (j : Z) (q : point) : R :=
  - (w_path / 2) * gap (original j) q ^ 2 + match near j with Some (o, v) => obstacle_cost o v q | None => 0 end.

Definition curvature_cost (X : Z -> point) : R :=
  total_over (moved_samples num cusp) (fun j => w_curvature / 2 * excess (curvature (X (j - 1)%Z) (X j) (X (j + 1)%Z) - bound)).
Definition smoothness_cost (X : Z -> point) : R :=
  w_smooth / 2 * total_over (from 1 (Z.to_nat (num - 2))) (fun j => bend (X (j - 1)%Z) (X j) (X (j + 1)%Z)).
Definition cost (X : Z -> point) : R :=
  total_over (moved_samples num cusp) (fun j => place_cost j (X j)) + curvature_cost X + smoothness_cost X.

(** The cost is differentiable: no two samples in a row, and no sample and what is next to it, coincide, and no curvature is at its bound. *)
Definition differentiable (X : Z -> point) : Prop :=
  forall j, moved num cusp j = true ->
    gap (X (j - 1)%Z) (X j) <> 0 /\ gap (X j) (X (j + 1)%Z) <> 0 /\
    curvature (X (j - 1)%Z) (X j) (X (j + 1)%Z) <> bound /\
    match near j with Some (o, v) => gap o (X j) <> 0 /\ gap v (X j) <> 0 | None => True end.
End Cost.

(** What is next to the position [x], by the maps. *)
Definition next_to (f : frames) (nearest_obstacle nearest_edge : cell -> res cell) (x : point) (near : option (point * point)) : Prop :=
  match near with
  | None => inside_position f x = Ok false
  | Some (o, v) => exists c co cv, inside_position f x = Ok true /\ world_to_cell f x true = Ok c /\
      nearest_obstacle c = Ok co /\ nearest_edge c = Ok cv /\ o = cell_to_world f co /\ v = cell_to_world f cv
  end.

(** A step of gradient descent: the samples away from the ends and the cusps follow the gradient [G] of the cost, the others
    that of the part for the curvature. *)
Section Descent.
Variables w_path w_smooth w_voronoi w_collision w_curvature bound radius rate : R.
Variable f : frames.
Variables nearest_obstacle nearest_edge : cell -> res cell.
Variable num : Z.
Variable cusp : Z -> bool.
Variable original : Z -> point.

Definition descent_step (X G Y : Z -> point) : Prop :=
  (forall i, (0 <= i < num)%Z -> Y i = (fst (X i) - rate * fst (G i), snd (X i) - rate * snd (G i))) /\
  (forall near, (forall j, moved num cusp j = true -> next_to f nearest_obstacle nearest_edge (X j) (near j)) ->
   differentiable bound num cusp near X ->
   forall i, (0 <= i < num)%Z ->
     if moved num cusp i
     then gradient (fun q => cost w_path w_smooth w_voronoi w_collision w_curvature bound radius num cusp original near (put X i q)) (X i) (G i)
     else gradient (fun q => curvature_cost w_curvature bound num cusp (put X i q)) (X i) (G i)).
Definition descends (X Y : Z -> point) : Prop := exists G, descent_step X G Y.
End Descent.
