(** C122: bounds of a state space in double precision. *)
From Coq Require Import Reals ZArith Lra.
From Flocq Require Import Core BinarySingleNaN.
From Verif Require Import Base CoordsFloat_model StraightFloat_model SampleFloat_model SampleFloat_proofs.
Local Open Scope R_scope.

(** The full claim: a state that ValidateBounds accepts, a uniform sample and a Gaussian sample lie within the bounds. It is false twice.
    Not-a-number is accepted; *)
Theorem C122_accepted_is_within_refuted :
  exists lb ub x : double, is_finite lb = true /\ is_finite ub = true /\ d_validate lb ub x = true /\ is_nan x = true.
Proof. exists (d_of 0 0), (d_of 1 0), B754_nan. vm_compute. auto. Qed.
Print Assumptions C122_accepted_is_within_refuted.

(** and a uniform sample may be above the upper bound, here in a state space from -1 to 3 * 2^-54 with the draw 1. *)
Theorem C122_sample_is_within_refuted :
  exists lb ub u : double, is_finite lb = true /\ is_finite ub = true /\ 0 <= B2R u <= 1 /\ Bltb lb ub = true /\
    d_validate lb ub (d_sample lb ub u) = false.
Proof.
  exists (d_of (-1) 0), (d_of 3 (-54)), d_one. split; [vm_compute; reflexivity|]. split; [vm_compute; reflexivity|].
  split; [rewrite (proj2 StraightFloat_proofs.one_real); lra|]. split; vm_compute; reflexivity.
Qed.
Print Assumptions C122_sample_is_within_refuted.

(** Other numbers are accepted exactly if they are within the bounds; infinity never is. *)
Theorem C122_accepted_is_within_partial :
  forall lb ub x : double, is_finite lb = true -> is_finite ub = true -> is_nan x = false ->
    d_validate lb ub x = true <-> is_finite x = true /\ B2R lb <= B2R x <= B2R ub.
Proof.
  intros lb ub x Fl Fu Nx. destruct x as [s|s| |s m e H]; try discriminate.
  - rewrite validate_real by auto. tauto.
  - rewrite inf_out by auto. split; [easy|intros [H _]; easy].
  - rewrite validate_real by auto. tauto.
Qed.
Print Assumptions C122_accepted_is_within_partial.

(** A uniform sample is never below the lower bound, above the upper one by at most 2^-51 times the larger bound [M], and not above it if the
    difference of the bounds is exact (if one is zero, or both are whole numbers below 2^52, for example). *)
Theorem C122_sample_is_within_partial :
  forall (lb ub u : double) (M : R), is_finite lb = true -> is_finite ub = true -> is_finite u = true -> B2R lb <= B2R ub -> 0 <= B2R u <= 1 ->
    Rabs (B2R lb) <= M -> Rabs (B2R ub) <= M -> M <= bpow radix2 1020 ->
    is_finite (d_sample lb ub u) = true /\ B2R lb <= B2R (d_sample lb ub u) <= B2R ub + bpow radix2 (-51) * M /\
    (round radix2 (FLT_exp (-1074) 53) ZnearestE (B2R ub - B2R lb) = B2R ub - B2R lb -> d_validate lb ub (d_sample lb ub u) = true).
Proof.
  intros lb ub u M Fl Fu Fd Hb Hd Ml Mu HM. destruct (sample_bounds lb ub u M Fl Fu Fd Hb Hd Ml Mu HM) as (F & B & X).
  split; [exact F|]. split; [exact B|]. intros E. apply validate_real; auto. split; [apply B|]. now apply X.
Qed.
Print Assumptions C122_sample_is_within_partial.

(** A Gaussian sample that is a number, whatever was drawn, is within the bounds. *)
Theorem C122_gaussian_is_within_partial :
  forall lb ub mean dev g : double, is_finite lb = true -> is_finite ub = true -> B2R lb <= B2R ub -> is_nan (d_add mean (d_mul dev g)) = false ->
    exists y, d_gaussian lb ub mean dev g = Ok y /\ is_finite y = true /\ B2R lb <= B2R y <= B2R ub /\
      (d_validate lb ub (d_add mean (d_mul dev g)) = true -> y = d_add mean (d_mul dev g)).
Proof.
  intros lb ub mean dev g Fl Fu H N. destruct (clamp_valid _ lb ub Fl Fu H N) as (y & E & F & V & S). exists y. split; [exact E|]. split; [exact F|].
  split; [now apply validate_real in V|exact S].
Qed.
Print Assumptions C122_gaussian_is_within_partial.

(** Non-vacuity: a state space from -5 to 5, whose difference is exact, and the sample at the draw 1/4. *)
Example C122_sample : B2SF (d_sample (d_of (-5) 0) (d_of 5 0) (d_of 1 (-2))) = B2SF (d_of (-5) (-1)) /\ B2SF (d_sub (d_of 5 0) (d_of (-5) 0)) = B2SF (d_of 10 0).
Proof. vm_compute. auto. Qed.
Example C122_infinite_draw : match d_gaussian (d_of (-5) 0) (d_of 5 0) (d_of 0 0) (d_of 1 1000) (d_of 1 1000) with Ok y => B2SF y = B2SF (d_of 5 0) | _ => False end.
Proof. vm_compute. reflexivity. Qed.
