(** The conversions between cells and positions, /repo/planner/src/state_validator/occupancy_map.{h,cpp}, with the IEEE-754 roundings of the
    code: [resolution], [width] and the product with the row are single precision, everything else is double precision. One coordinate
    only; the other is treated alike. The numbers and their operations are those of Flocq, which uses one NaN instead of many. *)
From Coq Require Import ZArith.
From Flocq Require Import BinarySingleNaN.
From Verif Require Import Base.
Local Open Scope Z_scope.

Definition single : Type := binary_float 24 128.
Definition double : Type := binary_float 53 1024.
(** The numbers nearest to [n * 2^e]; with [e = 0] the conversion from [int]. *)
Definition s_of (n e : Z) : single := @binary_normalize 24 128 (eq_refl _) (eq_refl _) mode_NE n e false.
Definition d_of (n e : Z) : double := @binary_normalize 53 1024 (eq_refl _) (eq_refl _) mode_NE n e false.
Definition s_mul (x y : single) : single := @Bmult 24 128 (eq_refl _) (eq_refl _) mode_NE x y.
Definition s_div (x y : single) : single := @Bdiv 24 128 (eq_refl _) (eq_refl _) mode_NE x y.
Definition d_add (x y : double) : double := @Bplus 53 1024 (eq_refl _) (eq_refl _) mode_NE x y.
Definition d_sub (x y : double) : double := @Bminus 53 1024 (eq_refl _) (eq_refl _) mode_NE x y.
Definition d_div (x y : double) : double := @Bdiv 53 1024 (eq_refl _) (eq_refl _) mode_NE x y.

(** Conversion of single to double precision. *)
Definition widen (x : single) : double :=
  match x with
  | B754_zero s => B754_zero s
  | B754_infinity s => B754_infinity s
  | B754_nan => B754_nan
  | B754_finite s m e _ => @binary_normalize 53 1024 (eq_refl _) (eq_refl _) mode_NE (SpecFloat.cond_Zopp s (Zpos m)) e s
  end.

(** Conversion to [int], undefined out of its range. *)
Definition to_int (z : Z) : res Z := if (- 2 ^ 31 <=? z) && (z <? 2 ^ 31) then Ok z else UB.
(** [static_cast<int>] of a double. *)
Definition d_trunc (x : double) : res Z := if is_finite x then to_int (Btrunc x) else UB.
(** [ceil] of a single, converted to [int]. *)
Definition s_ceil (x : single) : res Z :=
  match x with
  | B754_zero _ => Ok 0
  | B754_finite s m e _ =>
      to_int (if 0 <=? e then SpecFloat.cond_Zopp s (Zpos m) * 2 ^ e else - ((- SpecFloat.cond_Zopp s (Zpos m)) / 2 ^ (- e)))
  | _ => UB
  end.

(** occupancy_map.cpp:8: [-width / 2.0]. *)
Definition local_origin (width : single) : double := d_div (widen (Bopp width)) (d_of 2 0).
(** occupancy_map.cpp:9: [m_localOrigin + m_localGridOrigin]. *)
Definition world_origin (pos : double) (width : single) : double := d_add pos (local_origin width).
(** occupancy_map.cpp:10: [ceil(width / resolution)]. *)
Definition num_rows (width resolution : single) : res Z := s_ceil (s_div width resolution).
(** occupancy_map.h:91-94, 135-138, 145-148: [origin + row * resolution], with the origin of the local or the world frame. *)
Definition row_to_position (origin : double) (resolution : single) (row : Z) : double := d_add origin (widen (s_mul (s_of row 0) resolution)).
(** occupancy_map.h:106-108, 155-158: [static_cast<int>((x - origin) / resolution)]. *)
Definition position_to_row (origin : double) (resolution : single) (x : double) : res Z := d_trunc (d_div (d_sub x origin) (widen resolution)).
