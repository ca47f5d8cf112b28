(** Property C127, of the obstacle heuristic in single precision. *)
From Coq Require Import Reals ZArith Lra Lia.
From Flocq Require Import Core BinarySingleNaN.
From Verif Require Import Base Grid_model Grid_spec AStarN2_spec CoordsFloat_model CoordsFloat_proofs ObstHeur_model ObstHeur_spec ObstHeur_proofs
  ObstHeurFloat_model ObstHeurFloat_spec ObstHeurFloat_proofs.
From Coq Require Import ZifyBool ZifyNat ZifyN.
Local Open Scope Z_scope.

(** The update ends within one iteration per cell, and explores exactly the cells to which there is a walk. *)
Theorem C127_explores_reachable :
  forall m n occ o start fuel st0, float_updated m n st0 -> answers m n occ o -> inside m n start -> (Z.to_nat m * Z.to_nat n < fuel)%nat ->
  exists st, float_update fuel m n occ start st0 = Ok st /\
  forall c, inside m n c -> exists b, grid_get (o_explored st) c = Ok b /\ (b = true <-> exists l, walk m n o start l c).
Proof. exact float_explored. Qed.
Print Assumptions C127_explores_reachable.

(** The stored cost is finite, on maps of any size. It is the length of a walk up to a relative rounding error of 2^-24 per step and one more,
    and at most the square root of 2 times the length of any walk, up to the same rounding errors. Without a walk, it is infinite. *)
Theorem C127_stored_costs :
  forall m n occ o start fuel st0 st c, float_updated m n st0 -> answers m n occ o -> inside m n start -> (Z.to_nat m * Z.to_nat n < fuel)%nat ->
  float_update fuel m n occ start st0 = Ok st -> inside m n c ->
  (forall l, walk m n o start l c -> exists x, grid_get (o_cost st) c = Ok (Some x) /\ s_finite x /\ (0 <= s_value x <= 2 ^ 25)%R /\
     (exists l', walk m n o start l' c /\
        ((1 - s_unit) ^ S (length l') * walk_cost octile start l' <= s_value x <= (1 + s_unit) ^ S (length l') * walk_cost octile start l')%R) /\
     (s_value x <= (1 + s_unit) ^ S (length l) * (sqrt 2 * walk_cost octile start l))%R) /\
  ((forall l, ~ walk m n o start l c) -> grid_get (o_cost st) c = Ok None).
Proof. exact float_stored. Qed.
Print Assumptions C127_stored_costs.

(** The value is a finite number and never below the distance to the goal that is passed to it. For a cell to which there is a walk it is the greater of
    that distance and of the stored cost, scaled and lowered by a diagonal, up to a relative error of 6 * 2^-24; for all others it is that distance. *)
Theorem C127_value :
  forall m n occ o start fuel st0 st (resolution : single) (reverse forward euclidean : double) c,
  float_updated m n st0 -> answers m n occ o -> inside m n start -> (Z.to_nat m * Z.to_nat n < fuel)%nat -> float_update fuel m n occ start st0 = Ok st ->
  is_finite resolution = true -> (0 <= B2R resolution <= bpow radix2 30)%R -> is_finite reverse = true -> (0 <= B2R reverse)%R -> is_finite forward = true -> (0 <= B2R forward)%R ->
  (Rmin (B2R reverse) (B2R forward) <= bpow radix2 30)%R -> is_finite euclidean = true -> cell_is_valid c = false \/ inside m n c ->
  exists v, float_value resolution reverse forward euclidean c st = Ok v /\ is_finite v = true /\ (B2R euclidean <= B2R v)%R /\
  ((cell_is_valid c = false \/ forall l, ~ walk m n o start l c) -> v = euclidean) /\
  (forall l, inside m n c -> walk m n o start l c -> exists x, grid_get (o_cost st) c = Ok (Some x) /\
     let p := (Rmin (B2R reverse) (B2R forward) * B2R resolution)%R in let q := (sqrt 2 * B2R resolution)%R in
     (Rabs (B2R v - Rmax (p * s_value x - q) (B2R euclidean)) <= 6 * s_unit * (p * s_value x + q) + bpow radix2 (-122))%R).
Proof. exact float_value_spec. Qed.
Print Assumptions C127_value.

(** A map with a wall, with the goal in a corner: *)
Definition f_wall (c : cell) : bool := cell_eqb c (Cell 1 1) || cell_eqb c (Cell 2 1).
Definition f_new : ostate single := match oh_new 4 5 with Ok st => st | _ => OState (Grid 0 0 []) (Grid 0 0 []) end.
Example C127_inputs : float_updated 4 5 f_new /\ answers 4 5 (fun c => Ok (f_wall c)) f_wall /\ inside 4 5 (Cell 3 4) /\
  walk 4 5 f_wall (Cell 3 4) [Cell 3 3; Cell 3 2; Cell 3 1; Cell 2 0; Cell 1 0] (Cell 1 0).
Proof.
  split; [apply updated_new; reflexivity|]. split; [intros c _; reflexivity|]. split; [split; cbn; lia|].
  repeat split; cbn; try lia; try (intros (_ & H & _); lia); try (intros (H & _); lia); try (intros (_ & _ & H & H2); vm_compute in H, H2; discriminate).
Qed.
(** the cost behind the wall is four times the rounded square root of 2, added up in single precision, 11863283 * 2^-21; *)
Example C127_around_the_wall :
  match float_update 21 4 5 (fun c => Ok (f_wall c)) (Cell 3 4) f_new with
  | Ok st => match grid_get (o_cost st) (Cell 1 0) with Ok (Some x) => B2SF x | _ => SpecFloat.S754_nan end
  | _ => SpecFloat.S754_nan
  end = SpecFloat.S754_finite false 11863283 (-21).
Proof. vm_compute. reflexivity. Qed.
(** with cells of size 1/4 and both multipliers 1 the value at a distance of 1/2 is the scaled cost less the diagonal, about 1.0607. *)
Example C127_a_value :
  match float_update 21 4 5 (fun c => Ok (f_wall c)) (Cell 3 4) f_new with
  | Ok st => match float_value (s_of 1 (-2)) (d_of 1 0) (d_of 1 0) (d_of 1 (-1)) (Cell 1 0) st with Ok v => B2SF v | _ => SpecFloat.S754_nan end
  | _ => SpecFloat.S754_nan
  end = SpecFloat.S754_finite false 4776788538425344 (-52).
Proof. vm_compute. reflexivity. Qed.

(** Why the error has to grow with the length of the walk: from 2^24 on a straight step adds nothing, and from 2^25 on no step does. *)
Example C127_straight_steps_are_lost : B2SF (s_add s_one (s_of 1 24)) = B2SF (s_of 1 24) /\ B2SF (s_add s_diag (s_of 1 25)) = B2SF (s_of 1 25).
Proof. split; vm_compute; reflexivity. Qed.
