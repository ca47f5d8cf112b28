(** Composite paths in IEEE double precision, /repo/planner/src/paths/path_composite.{h,cpp}: [Composite_model.v] with the arithmetic of the code. The
    parts are arbitrary paths, given by their virtual functions. *)
From Coq Require Import ZArith.
From Flocq Require Import BinarySingleNaN.
From Verif Require Import Base CoordsFloat_model StraightFloat_model Bicycle_model Composite_model.
Local Open Scope Z_scope.

Section Composite.
Variables State Part : Type.
(** path.h:22-57 and 75-90: [GetLength], [GetFinalState], [Interpolate], [Truncate], [GetDirection], [GetCuspPointRatios]. *)
Variable part_length : Part -> double.
Variable part_final : Part -> State.
Variable part_at : Part -> double -> res State.
Variable part_truncate : Part -> double -> Part.
Variable part_direction : Part -> double -> direction.
Variable part_cusps : Part -> list double.

(** path_composite.h:13-21, an element of [Paths]. *)
Record d_segment := DSegment { ds_init : double; ds_final : double; ds_path : Part }.
(** path_composite.h:89 and path.h:55-56. *)
Record d_composite := DComposite { dk_paths : list d_segment; dk_init : State; dk_final : State; dk_length : double }.

(** path_composite.h:24, the default constructor; [dflt] is the default-constructed state. *)
Definition dk_new (dflt : State) : d_composite := DComposite [] dflt dflt d_zero.

(** path_composite.h:34-40, [PushBack]. *)
Definition dk_push (c : d_composite) (p : Part) : d_composite :=
  DComposite (dk_paths c ++ [DSegment (dk_length c) (d_add (dk_length c) (part_length p)) p]) (dk_init c) (part_final p) (d_add (dk_length c) (part_length p)).

(** path_composite.h:74-77, [std::upper_bound]: undefined unless the list is partitioned. *)
Fixpoint d_upper_bound (len : double) (l : list d_segment) : res nat :=
  match l with
  | [] => Ok 0%nat
  | x :: r =>
      if Bltb len (ds_final x) then (if forallb (fun y => Bltb len (ds_final y)) r then Ok 0%nat else UB)
      else do i <- d_upper_bound len r; Ok (S i)
  end.

(** path_composite.h:71-86, [FindSegment]. *)
Definition d_find_segment (c : d_composite) (ratio : double) : res (nat * double) :=
  let len := d_mul ratio (dk_length c) in
  do i <- d_upper_bound len (dk_paths c);
  match nth_error (dk_paths c) i with
  | None => Ok (i, d_one)
  | Some s =>
      let pathLength := part_length (ds_path s) in
      if Beqb pathLength d_zero then Ok (i, d_zero) else Ok (i, d_div (d_sub len (ds_init s)) pathLength)
  end.

(** path_composite.h:43-52, [Interpolate]. *)
Definition dk_at (c : d_composite) (ratio : double) : res State :=
  match dk_paths c with
  | [] => Throw
  | _ =>
      do (i, pathRatio) <- d_find_segment c ratio;
      let i := if Nat.eqb i (length (dk_paths c)) then Nat.pred i else i in
      do s <- vget (dk_paths c) i;
      part_at (ds_path s) pathRatio
  end.

(** path_composite.h:56-68, [Truncate]. *)
Definition dk_truncate (c : d_composite) (ratio : double) : res d_composite :=
  match dk_paths c with
  | [] => Ok c
  | _ =>
      do (i, pathRatio) <- d_find_segment c ratio;
      if Nat.eqb i (length (dk_paths c)) then Ok c
      else
        do s <- vget (dk_paths c) i;
        let p := part_truncate (ds_path s) pathRatio in
        Ok (DComposite (firstn i (dk_paths c) ++ [DSegment (ds_init s) (ds_final s) p]) (dk_init c) (part_final p) (d_add (ds_init s) (part_length p)))
  end.

(** path_composite.cpp:29-33, [GetDirection]: reads past the end if no segment is found. *)
Definition dk_direction (c : d_composite) (ratio : double) : res direction :=
  do (i, pathRatio) <- d_find_segment c ratio;
  do s <- vget (dk_paths c) i;
  Ok (part_direction (ds_path s) pathRatio).

(** path_composite.cpp:4-27, [GetCuspPointRatios]. The set is given by a list of its elements. *)
Fixpoint d_cusp_loop (total : double) (l : list d_segment) (len : double) (prev : direction) : list double :=
  match l with
  | [] => []
  | s :: r =>
      (if direction_eqb (part_direction (ds_path s) d_zero) prev then [] else [d_div len total])
      ++ part_cusps (ds_path s)
      ++ d_cusp_loop total r (d_add len (part_length (ds_path s))) (part_direction (ds_path s) d_one)
  end.
Definition dk_cusps (c : d_composite) : list double :=
  match dk_paths c with
  | [] => []
  | s :: _ => d_cusp_loop (dk_length c) (dk_paths c) d_zero (part_direction (ds_path s) d_zero)
  end.
End Composite.
