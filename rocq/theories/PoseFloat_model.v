(** [Modulo] (/repo/planner/src/utils/maths.h:9-16) and [WrapTheta] (/repo/planner/src/geometry/2dplane.h:36-45) in IEEE
    double precision (Coq's [SpecFloat]). *)
From Coq Require Import ZArith SpecFloat.
Local Open Scope Z_scope.

Definition d64 (n e : Z) : spec_float := binary_normalize 53 1024 n e false.
Definition add64 : spec_float -> spec_float -> spec_float := SFadd 53 1024.
Definition sub64 : spec_float -> spec_float -> spec_float := SFsub 53 1024.
Definition mul64 : spec_float -> spec_float -> spec_float := SFmul 53 1024.

(** Neither infinite nor NaN. *)
Definition finite64 (x : spec_float) : bool :=
  match x with
  | S754_zero _ | S754_finite _ _ _ => true
  | _ => false
  end.

(** M_PI, and [2 * M_PI]. *)
Definition pi64 : spec_float := d64 7074237752028440 (-51).
Definition two_pi64 : spec_float := mul64 (d64 2 0) pi64.

(** fmod is exact in IEEE arithmetic: the remainder of the two integers over a common power of two. *)
Definition fmod64 (x m : spec_float) : spec_float :=
  match x, m with
  | S754_finite s1 m1 e1, S754_finite _ m2 e2 =>
    let e := Z.min e1 e2 in
    let r := Z.rem (Zpos m1 * 2 ^ (e1 - e)) (Zpos m2 * 2 ^ (e2 - e)) in
    binary_normalize 53 1024 (cond_Zopp s1 r) e s1
  | S754_zero s, S754_finite _ _ _ => S754_zero s
  | _, _ => S754_nan
  end.

(** maths.h:9-16. *)
Definition modulo64 (x m : spec_float) : spec_float :=
  let out := fmod64 x m in
  if SFltb out (S754_zero false) then add64 out m else out.

(** 2dplane.h:36-45, [None] if the loop has not ended after [fuel] iterations. *)
Fixpoint above64 (fuel : nat) (t : spec_float) : option spec_float :=
  match fuel with
  | O => None
  | S k => if SFltb pi64 t then above64 k (sub64 t two_pi64) else Some t
  end.
