(** Straight paths in IEEE double precision, /repo/planner/src/paths/path_r2.cpp and path_se2.cpp. One coordinate; the other coordinate and the
    heading are treated alike. The products and the sum are rounded one by one: a compiler may contract them to fused operations, which
    is not modelled. *)
From Coq Require Import ZArith.
From Flocq Require Import BinarySingleNaN.
From Verif Require Import Base CoordsFloat_model.
Local Open Scope Z_scope.

Definition d_mul (x y : double) : double := @Bmult 53 1024 (eq_refl _) (eq_refl _) mode_NE x y.
Definition d_one : double := d_of 1 0.
Definition d_zero : double := B754_zero false.

(** path_r2.cpp:11-16 and path_se2.cpp:11-17, [Interpolate]: [(1 - ratio) * m_init + ratio * m_final]. *)
Definition d_interp (a b r : double) : double := d_add (d_mul (d_sub d_one r) a) (d_mul r b).

(** The end and the length of a path. *)
Record dpath := DPath { dp_init : double; dp_final : double; dp_length : double }.
(** path_r2.cpp:18-22 and path_se2.cpp:19-23, [Truncate]. *)
Definition d_truncate (p : dpath) (r : double) : dpath :=
  DPath (dp_init p) (d_interp (dp_init p) (dp_final p) r) (d_mul (dp_length p) r).
