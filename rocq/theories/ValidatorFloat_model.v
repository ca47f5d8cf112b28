(** The validation of paths, /repo/planner/src/state_validator/state_validator_occupancy_map.cpp, with the single and double precision
    arithmetic of the code. The path is what [Interpolate] returns for a ratio; the map is what it answers about a state. *)
From Coq Require Import ZArith.
From Flocq Require Import BinarySingleNaN.
From Verif Require Import Base CoordsFloat_model StraightFloat_model.
Local Open Scope Z_scope.

Definition s_sub (x y : single) : single := @Bminus 24 128 (eq_refl _) (eq_refl _) mode_NE x y.
(** Conversion of double to single precision. *)
Definition narrow (x : double) : single :=
  match x with
  | B754_zero s => B754_zero s
  | B754_infinity s => B754_infinity s
  | B754_nan => B754_nan
  | B754_finite s m e _ => @binary_normalize 24 128 (eq_refl _) (eq_refl _) mode_NE (SpecFloat.cond_Zopp s (Zpos m)) e s
  end.
(** [std::min] and [std::max] of two numbers. *)
Definition s_min (a b : single) : single := if Bltb b a then b else a.
Definition s_max (a b : single) : single := if Bltb a b then b else a.
(** [std::min] of a list of numbers, which starts with [a]. *)
Definition d_least (a : double) (l : list double) : double := fold_left (fun m x => if Bltb x m then x else m) l a.

Section Validate.
  (** Poses; their position. [interp] is [Interpolate] of the path. *)
  Context {St : Type} (xy : St -> double * double) (interp : double -> res St).
  (** [inside] stands for lines 15-21, the tests of the bounds and of the map (true if both are passed); [distance] is the distance that the map
      reports for the cell of the state, line 24, and again lines 62-63. *)
  Context (inside : St -> res bool) (distance : St -> res single).
  (** The position of the bounds of the state space, [minSafeRadius] and [minPathInterpolationDistance]. *)
  Context (lb ub : double * double) (minSafe minStep : single).

  (** state_validator_occupancy_map.cpp:15-26, [IsStateValid]. *)
  Definition f_state_valid (x : St) : res bool :=
    do i <- inside x;
    if i then do d <- distance x; Ok (Bleb minSafe d) else Ok false.

  (** state_validator_occupancy_map.cpp:54-60. *)
  Definition f_border (x : St) : single :=
    narrow (d_least (d_sub (fst (xy x)) (fst lb)) [d_sub (fst ub) (fst (xy x)); d_sub (snd (xy x)) (snd lb); d_sub (snd ub) (snd (xy x))]).
  (** state_validator_occupancy_map.cpp:62-66. *)
  Definition f_step (x : St) (d : single) : single := s_max (s_min (s_sub d minSafe) (f_border x)) minStep.

  (** state_validator_occupancy_map.cpp:40-67, the loop, and line 69. *)
  Fixpoint f_loop (fuel : nat) (len length lastValid : double) : res (bool * single) :=
    if Bltb length len then
      match fuel with
      | O => NoFuel
      | S k =>
          do x <- interp (d_div length len);
          do v <- f_state_valid x;
          if negb v then Ok (false, narrow (d_div lastValid len))
          else do d <- distance x; f_loop k len (d_add length (widen (f_step x d))) length
      end
    else Ok (true, s_of 1 0).

  (** state_validator_occupancy_map.cpp:28-71, [IsPathValid], with the ratio stored through [last]; [init] is the initial state and [len] the length of the path. *)
  Definition f_path_valid (fuel : nat) (init : St) (len : double) : res (bool * single) :=
    if Beqb len d_zero then do v <- f_state_valid init; Ok (v, s_of 1 0)
    else f_loop fuel len d_zero d_zero.
End Validate.
