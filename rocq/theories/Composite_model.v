(** Model of composite paths, /repo/planner/src/paths/path_composite.{h,cpp}. The parts are arbitrary paths, given by their
    virtual functions. A composite owns its parts in the model; in the code they are shared, so that truncating a composite also
    changes the paths it was built from. *)
From Coq Require Import Reals.
From Verif Require Import Base RealBase Bicycle_model.
Local Open Scope R_scope.

Section Composite.
Variables State Part : Type.
(** path.h:22-57 and 75-90: [GetLength], [GetFinalState], [Interpolate], [Truncate], [GetDirection], [GetCuspPointRatios]. *)
Variable part_length : Part -> R.
Variable part_final : Part -> State.
Variable part_at : Part -> R -> res State.
Variable part_truncate : Part -> R -> Part.
Variable part_direction : Part -> R -> direction.
Variable part_cusps : Part -> list R.

(** path_composite.h:13-21, an element of [Paths]. *)
Record segment := Segment { seg_init : R; seg_final : R; seg_path : Part }.

(** path_composite.h:89 and path.h:55-56. *)
Record composite := Composite { k_paths : list segment; k_init : State; k_final : State; k_length : R }.

(** path_composite.h:24, the default constructor; [dflt] is the default-constructed state. *)
Definition k_new (dflt : State) : composite := Composite [] dflt dflt 0.

(** path_composite.h:34-40, [PushBack]. *)
Definition push_back (c : composite) (p : Part) : composite :=
  Composite (k_paths c ++ [Segment (k_length c) (k_length c + part_length p) p]) (k_init c) (part_final p) (k_length c + part_length p).

(** path_composite.h:74-77, [std::upper_bound]: the index of the first segment whose final length is above [len]. The
    behaviour is undefined unless all the following ones are above, too (requirement of the standard library). *)
Fixpoint upper_bound (len : R) (l : list segment) : res nat :=
  match l with
  | [] => Ok 0%nat
  | x :: r =>
      if Rltb len (seg_final x) then (if forallb (fun y => Rltb len (seg_final y)) r then Ok 0%nat else UB)
      else do i <- upper_bound len r; Ok (S i)
  end.

(** path_composite.h:71-86, [FindSegment]. *)
Definition find_segment (c : composite) (ratio : R) : res (nat * R) :=
  let len := ratio * k_length c in
  do i <- upper_bound len (k_paths c);
  match nth_error (k_paths c) i with
  | None => Ok (i, 1)
  | Some s =>
      let pathLength := part_length (seg_path s) in
      if Reqb pathLength 0 then Ok (i, 0) else Ok (i, (len - seg_init s) / pathLength)
  end.

(** path_composite.h:43-52, [Interpolate]. *)
Definition k_at (c : composite) (ratio : R) : res State :=
  match k_paths c with
  | [] => Throw
  | _ =>
      do (i, pathRatio) <- find_segment c ratio;
      let i := if Nat.eqb i (length (k_paths c)) then Nat.pred i else i in
      do s <- vget (k_paths c) i;
      part_at (seg_path s) pathRatio
  end.

(** path_composite.h:56-68, [Truncate]. *)
Definition k_truncate (c : composite) (ratio : R) : res composite :=
  match k_paths c with
  | [] => Ok c
  | _ =>
      do (i, pathRatio) <- find_segment c ratio;
      if Nat.eqb i (length (k_paths c)) then Ok c
      else
        do s <- vget (k_paths c) i;
        let p := part_truncate (seg_path s) pathRatio in
        Ok (Composite (firstn i (k_paths c) ++ [Segment (seg_init s) (seg_final s) p]) (k_init c) (part_final p) (seg_init s + part_length p))
  end.

(** path_composite.cpp:29-33, [GetDirection]: reads past the end if no segment is found. *)
Definition k_direction (c : composite) (ratio : R) : res direction :=
  do (i, pathRatio) <- find_segment c ratio;
  do s <- vget (k_paths c) i;
  Ok (part_direction (seg_path s) pathRatio).

Definition direction_eqb (a b : direction) : bool :=
  match a, b with Forward, Forward | Backward, Backward | NoMotion, NoMotion => true | _, _ => false end.

(** path_composite.cpp:4-27, [GetCuspPointRatios]. The set is given by a list of its elements. *)
Fixpoint cusp_loop (total : R) (l : list segment) (len : R) (prev : direction) : list R :=
  match l with
  | [] => []
  | s :: r =>
      (if direction_eqb (part_direction (seg_path s) 0) prev then [] else [len / total])
      ++ part_cusps (seg_path s)
      ++ cusp_loop total r (len + part_length (seg_path s)) (part_direction (seg_path s) 1)
  end.
Definition k_cusps (c : composite) : list R :=
  match k_paths c with
  | [] => []
  | s :: _ => cusp_loop (k_length c) (k_paths c) 0 (part_direction (seg_path s) 0)
  end.
End Composite.
