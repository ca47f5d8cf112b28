(** What a user expects of the table of the non-holonomic heuristic in double precision. *)
From Coq Require Import Reals.
From Flocq Require Import Core BinarySingleNaN.
From Verif Require Import Base CoordsFloat_model AngleFloat_model StateValidFloat_model NonHolFloat_model.
Local Open Scope R_scope.

(** A table for resolutions that are positive numbers, the spatial one not extreme, with less than 2^31 headings. *)
Record sensible (t : d_table) : Prop := {
  s_built : exists lower upper, d_build lower upper (dt_res t) (dt_ang t) = Ok t;
  s_res : is_finite (dt_res t) = true /\ bpow radix2 (-900) <= B2R (dt_res t) <= bpow radix2 900;
  s_ang : is_finite (dt_ang t) = true /\ 0 < B2R (dt_ang t);
  s_numang : (dt_numang t < 2 ^ 31)%Z
}.

(** A difference of poses: three numbers, with a heading between minus and plus [M_PI] and an index that is small enough for [int]. *)
Record difference (t : d_table) (delta : d_pose) : Prop := {
  f_x : is_finite (d_x delta) = true /\ Rabs (B2R (d_x delta)) + B2R (dt_offx t) <= bpow radix2 30 * B2R (dt_res t);
  f_y : is_finite (d_y delta) = true /\ Rabs (B2R (d_y delta)) + B2R (dt_offy t) <= bpow radix2 30 * B2R (dt_res t);
  f_th : is_finite (d_theta delta) = true /\ - B2R d_pi <= B2R (d_theta delta) <= B2R d_pi
}.

(** The effect of rounding on coordinates of the size [m], for the resolution [r]. *)
Definition slack (r m : R) : R := bpow radix2 (-50) * m + bpow radix2 (-100) * r.

(** Node [i] of an axis is next to the coordinate [x], up to half a resolution and rounding. *)
Definition next_to (i : Z) (off r x : R) : Prop := Rabs (IZR i * r - off - x) <= r / 2 + slack r (Rabs x + off).

(** The coordinate [x] is at or beyond the last node and half a resolution, up to rounding. *)
Definition past (off r x : R) : Prop := off + r / 2 - slack r (Rabs x + off) <= Rabs x.

(** The [sin] and [cos] of the library are right up to 2^-52, for the angles up to 32. *)
Definition good_rotations (dsin dcos : double -> double) : Prop :=
  forall x, is_finite x = true -> Rabs (B2R x) <= 32 ->
    (is_finite (dsin x) = true /\ Rabs (B2R (dsin x) - sin (B2R x)) <= bpow radix2 (-52)) /\
    (is_finite (dcos x) = true /\ Rabs (B2R (dcos x) - cos (B2R x)) <= bpow radix2 (-52)).

(** Three numbers: coordinates up to [size] and a heading between minus and plus [M_PI]. *)
Definition pose_within (size : R) (p : d_pose) : Prop :=
  (is_finite (d_x p) = true /\ Rabs (B2R (d_x p)) <= size) /\ (is_finite (d_y p) = true /\ Rabs (B2R (d_y p)) <= size) /\
  (is_finite (d_theta p) = true /\ - B2R d_pi <= B2R (d_theta p) <= B2R d_pi).

(** [delta] is where [goal] is as seen from [state], up to [e] per coordinate; its heading is the difference of theirs, rounded once and up to a turn. *)
Definition seen_from (e : R) (goal state delta : d_pose) : Prop :=
  let dx := B2R (d_x goal) - B2R (d_x state) in
  let dy := B2R (d_y goal) - B2R (d_y state) in
  let th := B2R (d_theta state) in
  Rabs (B2R (d_x delta) - (dx * cos th + dy * sin th)) <= e /\
  Rabs (B2R (d_y delta) - (dy * cos th - dx * sin th)) <= e /\
  exists k, (Z.abs k <= 1)%Z /\ Rabs (B2R (d_theta delta) - (B2R (d_theta goal) - th - IZR k * (2 * B2R d_pi))) <= bpow radix2 (-50).
