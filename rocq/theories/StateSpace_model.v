(** Model of the state spaces, /repo/planner/src/state_space/*, and of the random numbers they use,
    /repo/planner/src/utils/random.h. Numbers are reals; see [sample_uniform64] for the rounding. *)
From Coq Require Import Reals SpecFloat.
From Verif Require Import Base RealBase Coords_model Pose_model PoseFloat_model.
Local Open Scope R_scope.

(** std::clamp, undefined for an empty interval. *)
Definition clamp_in (x lo hi : R) : res R :=
  if Rltb hi lo then UB else Ok (if Rltb x lo then lo else if Rltb hi x then hi else x).

(** random.h:23-27, [Random::SampleUniform]: [u] is the number drawn from the distribution. *)
Definition sample_uniform (lb ub u : R) : R := lb + (ub - lb) * u.
(** random.h:31-34, [Random::SampleGaussian]. *)
Definition sample_gaussian (mean dev g : R) : R := mean + dev * g.

(** state_space_r2.cpp:4-12, [EnforceBounds]. *)
Definition r2_enforce (lb ub s : point) : res point :=
  do x <- clamp_in (fst s) (fst lb) (fst ub);
  do y <- clamp_in (snd s) (snd lb) (snd ub);
  Ok (x, y).
(** state_space_r2.cpp:14-23, [ValidateBounds]. *)
Definition r2_validate (lb ub s : point) : bool :=
  if Rltb (fst s) (fst lb) || Rltb (fst ub) (fst s) then false
  else if Rltb (snd s) (snd lb) || Rltb (snd ub) (snd s) then false
  else true.
(** state_space_r2.cpp:25-35, [SampleUniform]. *)
Definition r2_sample_uniform (lb ub u : point) : point :=
  (sample_uniform (fst lb) (fst ub) (fst u), sample_uniform (snd lb) (snd ub) (snd u)).
(** state_space_r2.cpp:37-48, [SampleGaussian]. *)
Definition r2_sample_gaussian (lb ub mean dev g : point) : res point :=
  r2_enforce lb ub (sample_gaussian (fst mean) (fst dev) (fst g), sample_gaussian (snd mean) (snd dev) (snd g)).

(** state_space_se2.cpp:4-13, [EnforceBounds]. The fields are assigned without wrapping the angle. *)
Definition se2_enforce (lb ub s : pose) : res pose :=
  do x <- clamp_in (px s) (px lb) (px ub);
  do y <- clamp_in (py s) (py lb) (py ub);
  do t <- clamp_in (pth s) (pth lb) (pth ub);
  Ok (Pose x y t).
(** state_space_se2.cpp:15-25, [ValidateBounds]. *)
Definition se2_validate (lb ub s : pose) : bool :=
  if Rltb (px s) (px lb) || Rltb (px ub) (px s) then false
  else if Rltb (py s) (py lb) || Rltb (py ub) (py s) then false
  else if Rltb (pth s) (pth lb) || Rltb (pth ub) (pth s) then false
  else true.
(** state_space_se2.cpp:27-38, [SampleUniform]. *)
Definition se2_sample_uniform (lb ub u : pose) : pose :=
  Pose (sample_uniform (px lb) (px ub) (px u)) (sample_uniform (py lb) (py ub) (py u)) (sample_uniform (pth lb) (pth ub) (pth u)).
(** state_space_se2.cpp:40-52, [SampleGaussian]. *)
Definition se2_sample_gaussian (lb ub mean dev g : pose) : res pose :=
  se2_enforce lb ub (Pose (sample_gaussian (px mean) (px dev) (px g)) (sample_gaussian (py mean) (py dev) (py g))
    (sample_gaussian (pth mean) (pth dev) (pth g))).

(** state_space.h:36-44, [SampleUniform(numSamples)], for states [sample i]. [reserve] leaves the vector empty, so that
    the assignment is to an element outside of it. The overload of [SampleGaussian] (lines 49-57) names a function
    that does not exist and cannot be instantiated; it is not modelled. *)
Fixpoint fill {S} (sample : nat -> S) (states : list S) (i n : nat) : res (list S) :=
  match n with
  | O => Ok states
  | Datatypes.S k => do states1 <- vset states i (sample i); fill sample states1 (Datatypes.S i) k
  end.
Definition sample_many {S} (sample : nat -> S) (n : nat) : res (list S) := fill sample [] 0 n.

(** random.h:23-27 in IEEE double precision. *)
Definition sample_uniform64 (lb ub u : spec_float) : spec_float := add64 lb (mul64 (sub64 ub lb) u).
