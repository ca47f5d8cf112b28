(** Where turns and lines lead. *)
From Coq Require Import Reals.
From Flocq Require Import Core BinarySingleNaN.
From Verif Require Import Base CoordsFloat_model StateValidFloat_model Bicycle_model SteeringFloat_spec RsFloat_model RsFloat_spec.
Local Open Scope R_scope.

(** Driving a normalized length along a line or a turn of the given radius, from a position and a heading. *)
Definition advance (radius : R) (st : steer) (dir : direction) (len : R) (from : R * R * R) : R * R * R :=
  let '(x, y, th) := from in
  let a := signed dir len in
  match st with
  | SStraight => (x + a * radius * cos th, y + a * radius * sin th, th)
  | SLeft => (x + radius * (sin (th + a) - sin th), y + radius * (cos th - cos (th + a)), th + a)
  | SRight => (x - radius * (sin (th - a) - sin th), y - radius * (cos th - cos (th - a)), th - a)
  end.

(** Driving a sequence of motions. *)
Definition advance_all (radius : R) (l : list d_motion) (from : R * R * R) : R * R * R :=
  fold_left (fun p m => advance radius (dm_steer m) (dm_dir m) (B2R (dm_len m)) p) l from.

(** A pose of doubles. *)
Definition coordinates (p : d_pose) : R * R * R := (B2R (d_x p), B2R (d_y p), B2R (d_theta p)).

(** The pose [p] is [q], up to [e] per coordinate and [eh] in the heading, and full turns. *)
Definition near (e eh : R) (p : d_pose) (q : R * R * R) : Prop :=
  let '(x, y, th) := q in
  Rabs (B2R (d_x p) - x) <= e /\ Rabs (B2R (d_y p) - y) <= e /\ exists k, Rabs (B2R (d_theta p) - (th - IZR k * (2 * PI))) <= eh.

(** A path of the size [K], with its beginning and end, of turns up to the angle 8. *)
Definition sized (K : R) (radius : double) (l : list d_motion) (init : d_pose) : Prop :=
  bpow radix2 (-900) <= K <= bpow radix2 400 /\ bpow radix2 (-900) <= B2R radius <= K /\
  Rabs (B2R (d_x init)) + 2 * driven radius l <= K /\ Rabs (B2R (d_y init)) + 2 * driven radius l <= K /\
  (forall m, In m l -> dm_steer m <> SStraight -> B2R (dm_len m) <= 8).
