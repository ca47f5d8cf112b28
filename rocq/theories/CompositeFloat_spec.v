(** What a user expects of a sequence of paths in double precision. *)
From Coq Require Import Reals.
From Flocq Require Import Core BinarySingleNaN.
From Verif Require Import Base CoordsFloat_model CompositeFloat_model Composite_spec.
Local Open Scope R_scope.

Section Composite.
Variables State Part : Type.
Variable part_length : Part -> double.
Variable part_final : Part -> State.

(** The composite of a sequence of parts. *)
Definition d_compose (dflt : State) (parts : list Part) : d_composite State Part :=
  fold_left (dk_push State Part part_length part_final) parts (dk_new State Part dflt).

(** The parts have lengths, which are not negative, and so has the composite: its length is a number (there was no overflow). *)
Definition measured (dflt : State) (parts : list Part) : Prop :=
  (forall p, In p parts -> is_finite (part_length p) = true /\ 0 <= B2R (part_length p)) /\
  is_finite (dk_length _ _ (d_compose dflt parts)) = true.

(** The sum of the lengths, without rounding. *)
Definition real_total (parts : list Part) : R := total Part (fun p => B2R (part_length p)) parts.

(** Going the length [d] along the sequence, up to [e], leads into the part [p], at the ratio [s]. *)
Definition near_arrives (e : R) (parts : list Part) (d : R) (p : Part) (s : double) : Prop :=
  exists before after, parts = before ++ p :: after /\ is_finite s = true /\ 0 <= B2R s <= 1 /\
    Rabs (real_total before + B2R s * B2R (part_length p) - d) <= e.
End Composite.

(** A ratio. *)
Definition is_ratio (r : double) : Prop := is_finite r = true /\ 0 <= B2R r <= 1.

(** The effect of rounding on places along [n] parts of the total length [x]. *)
Definition rounding (n : nat) (x : R) : R := (INR n + 2) * (bpow radix2 (-52) * x) + bpow radix2 (-1074).
