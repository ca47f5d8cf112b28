(** Properties C48 and C49 of the state spaces. *)
From Coq Require Import Reals Lra SpecFloat.
From Verif Require Import Base RealBase Coords_model Pose_model PoseFloat_model StateSpace_model StateSpace_proofs.
Local Open Scope R_scope.

(** C48. What is validated is the box between the bounds. *)
Theorem C48_r2_validate_box :
  forall lb ub s, r2_validate lb ub s = true <-> fst lb <= fst s <= fst ub /\ snd lb <= snd s <= snd ub.
Proof. exact r2_validate_iff. Qed.
Print Assumptions C48_r2_validate_box.

Theorem C48_se2_validate_box :
  forall lb ub s, se2_validate lb ub s = true <->
    px lb <= px s <= px ub /\ py lb <= py s <= py ub /\ pth lb <= pth s <= pth ub.
Proof. exact se2_validate_iff. Qed.
Print Assumptions C48_se2_validate_box.

(** C48. The enforced state is accepted, accepted states are unchanged, enforcing again changes nothing, and no accepted
    state is closer in any coordinate. *)
Theorem C48_r2_enforce :
  forall lb ub s, fst lb <= fst ub -> snd lb <= snd ub ->
  exists s', r2_enforce lb ub s = Ok s' /\ r2_validate lb ub s' = true /\ (r2_validate lb ub s = true -> s' = s) /\
    r2_enforce lb ub s' = Ok s' /\
    (forall z, r2_validate lb ub z = true -> Rabs (fst s - fst s') <= Rabs (fst s - fst z) /\ Rabs (snd s - snd s') <= Rabs (snd s - snd z)).
Proof. exact r2_enforce_ok. Qed.
Print Assumptions C48_r2_enforce.

Theorem C48_se2_enforce :
  forall lb ub s, px lb <= px ub -> py lb <= py ub -> pth lb <= pth ub ->
  exists s', se2_enforce lb ub s = Ok s' /\ se2_validate lb ub s' = true /\ (se2_validate lb ub s = true -> s' = s) /\
    se2_enforce lb ub s' = Ok s' /\
    (forall z, se2_validate lb ub z = true -> Rabs (px s - px s') <= Rabs (px s - px z) /\ Rabs (py s - py s') <= Rabs (py s - py z) /\
       Rabs (pth s - pth s') <= Rabs (pth s - pth z)).
Proof. exact se2_enforce_ok. Qed.
Print Assumptions C48_se2_enforce.

(** C48. The bounds are needed in order: otherwise the call of [std::clamp] is undefined, whatever the state. *)
Theorem C48_r2_enforce_empty : forall lb ub s, fst ub < fst lb \/ snd ub < snd lb -> r2_enforce lb ub s = UB.
Proof.
  intros lb ub s H. unfold r2_enforce, clamp_in. destruct (Rltb_spec (fst ub) (fst lb)) as [|N]; [reflexivity|]. cbn [bind]. destruct (Rltb_spec (snd ub) (snd lb)); [reflexivity|exfalso; lra].
Qed.
Print Assumptions C48_r2_enforce_empty.

Theorem C48_se2_enforce_empty : forall lb ub s, px ub < px lb \/ py ub < py lb \/ pth ub < pth lb -> se2_enforce lb ub s = UB.
Proof.
  intros lb ub s H. unfold se2_enforce, clamp_in. destruct (Rltb_spec (px ub) (px lb)) as [|N]; [reflexivity|]. cbn [bind]. destruct (Rltb_spec (py ub) (py lb)) as [|N']; [reflexivity|]. cbn [bind]. destruct (Rltb_spec (pth ub) (pth lb)); [reflexivity|exfalso; lra].
Qed.
Print Assumptions C48_se2_enforce_empty.

(** C48. Samples are accepted, and every accepted state can be drawn. *)
Theorem C48_r2_uniform :
  forall lb ub u, fst lb <= fst ub -> snd lb <= snd ub -> 0 <= fst u <= 1 -> 0 <= snd u <= 1 ->
  r2_validate lb ub (r2_sample_uniform lb ub u) = true.
Proof. exact r2_uniform_ok. Qed.
Print Assumptions C48_r2_uniform.

Theorem C48_se2_uniform :
  forall lb ub u, px lb <= px ub -> py lb <= py ub -> pth lb <= pth ub -> 0 <= px u <= 1 -> 0 <= py u <= 1 -> 0 <= pth u <= 1 ->
  se2_validate lb ub (se2_sample_uniform lb ub u) = true.
Proof. exact se2_uniform_ok. Qed.
Print Assumptions C48_se2_uniform.

Theorem C48_r2_uniform_everywhere :
  forall lb ub s, r2_validate lb ub s = true -> exists u, 0 <= fst u <= 1 /\ 0 <= snd u <= 1 /\ r2_sample_uniform lb ub u = s.
Proof. exact r2_uniform_onto. Qed.
Print Assumptions C48_r2_uniform_everywhere.

Theorem C48_se2_uniform_everywhere :
  forall lb ub s, se2_validate lb ub s = true ->
  exists u, 0 <= px u <= 1 /\ 0 <= py u <= 1 /\ 0 <= pth u <= 1 /\ se2_sample_uniform lb ub u = s.
Proof. exact se2_uniform_onto. Qed.
Print Assumptions C48_se2_uniform_everywhere.

Theorem C48_r2_gaussian :
  forall lb ub mean dev g, fst lb <= fst ub -> snd lb <= snd ub ->
  exists s, r2_sample_gaussian lb ub mean dev g = Ok s /\ r2_validate lb ub s = true.
Proof. exact r2_gaussian_ok. Qed.
Print Assumptions C48_r2_gaussian.

Theorem C48_se2_gaussian :
  forall lb ub mean dev g, px lb <= px ub -> py lb <= py ub -> pth lb <= pth ub ->
  exists s, se2_sample_gaussian lb ub mean dev g = Ok s /\ se2_validate lb ub s = true.
Proof. exact se2_gaussian_ok. Qed.
Print Assumptions C48_se2_gaussian.

(** With the rounding of doubles a uniform sample may lie above the upper bound: between -1 and 3 * 2^-54 the draw 1 gives
    2^-52. *)
Theorem C48_rounded_sample_refuted :
  exists lb ub u, SFleb lb ub = true /\ SFleb (d64 0 0) u = true /\ SFleb u (d64 1 0) = true /\
    SFltb ub (sample_uniform64 lb ub u) = true.
Proof. exists (d64 (-1) 0), (d64 3 (-54)), (d64 1 0). vm_compute. auto. Qed.
Print Assumptions C48_rounded_sample_refuted.

(** C49. Full statement: [sample_many sample n] is a vector of [n] accepted states. It is undefined for every [n > 0]. *)
Theorem C49_sample_many_refuted :
  forall (S : Type) (sample : nat -> S) n, (0 < n)%nat -> sample_many sample n = UB.
Proof. exact @sample_many_ub. Qed.
Print Assumptions C49_sample_many_refuted.

Theorem C49_no_sample_partial : forall (S : Type) (sample : nat -> S), sample_many sample 0 = Ok [].
Proof. reflexivity. Qed.
Print Assumptions C49_no_sample_partial.

(** A state outside the bounds in two coordinates. *)
Example C48_example : exists s, se2_enforce (Pose (-5) (-5) (-3)) (Pose 5 5 3) (Pose 7 1 (-4)) = Ok s /\ s = Pose 5 1 (-3).
Proof.
  unfold se2_enforce, clamp_in. cbn [px py pth].
  destruct (Rltb_spec 5 (-5)); [exfalso; lra|]. destruct (Rltb_spec 7 (-5)); [exfalso; lra|]. destruct (Rltb_spec 5 7); [|exfalso; lra]. cbn [bind].
  destruct (Rltb_spec 1 (-5)); [exfalso; lra|]. destruct (Rltb_spec 5 1); [exfalso; lra|]. cbn [bind].
  destruct (Rltb_spec 3 (-3)); [exfalso; lra|]. destruct (Rltb_spec (-4) (-3)); [|exfalso; lra]. cbn [bind]. eauto.
Qed.
