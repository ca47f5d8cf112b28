(** Sampling within bounds in IEEE double precision, /repo/planner/src/utils/random.h, state_space/state_space_r2.cpp and state_space_se2.cpp.
    One coordinate. *)
From Coq Require Import ZArith.
From Flocq Require Import BinarySingleNaN.
From Verif Require Import Base CoordsFloat_model StraightFloat_model.

(** random.h:23-27, [SampleUniform]; [u] is the number drawn. *)
Definition d_sample (lb ub u : double) : double := d_add lb (d_mul (d_sub ub lb) u).
(** [std::clamp] as in state_space_r2.cpp:9-10 and state_space_se2.cpp:9-11, undefined if the bounds are the wrong way round. *)
Definition d_clamp (x lb ub : double) : res double :=
  if Bltb ub lb then UB else Ok (if Bltb x lb then lb else if Bltb ub x then ub else x).
(** random.h:31-34, [SampleGaussian], and state_space_r2.cpp:43-46, state_space_se2.cpp:46-50; [g] is the number drawn. *)
Definition d_gaussian (lb ub mean dev g : double) : res double := d_clamp (d_add mean (d_mul dev g)) lb ub.
(** state_space_r2.cpp:18-19 and state_space_se2.cpp:20-22, the test of one coordinate. *)
Definition d_validate (lb ub x : double) : bool := negb (Bltb x lb || Bltb ub x).
