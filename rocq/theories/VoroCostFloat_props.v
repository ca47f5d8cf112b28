(** Property C139, the costs of the motions of Hybrid A* in floating point. *)
From Coq Require Import Reals ZArith Lra Lia.
From Flocq Require Import Core BinarySingleNaN.
From Verif Require Import Base CoordsFloat_model StraightFloat_model ObstHeurFloat_model Bicycle_model CoordsFloat_proofs StraightFloat_proofs ValidatorFloat_proofs CellFloat_proofs CompositeFloat_spec RsFloat_proofs ObstHeurFloat_proofs PathSampleFloat_proofs
  VoroCostFloat_model VoroCostFloat_spec VoroCostFloat_proofs.
Local Open Scope R_scope.

(** The cost is a finite number that is not negative: the length times the factor of the direction, plus the factor of the Voronoi cost times one
    diagonal of a cell times the path cost at one place, which is less than about a diagonal before the end, up to rounding. *)
Theorem C139_cost :
  forall fuel field forward reverse voronoi resolution dir total, costs field -> factor forward -> factor reverse -> factor voronoi ->
  is_finite resolution = true -> bpow radix2 (-100) <= B2R resolution <= bpow radix2 30 -> is_finite total = true -> 0 <= B2R total <= bpow radix2 40 * B2R resolution ->
  2 * B2R total <= INR fuel * B2R resolution ->
  let I := B2R (d_diagonal resolution) in let T := B2R total in let V := B2R voronoi in
  let rate := match dir with Forward => B2R forward | Backward => B2R reverse | NoMotion => 0 end in
  Rabs (I - sqrt 2 * B2R resolution) <= bpow radix2 (-22) * (sqrt 2 * B2R resolution) /\
  exists x c, d_steer_cost fuel field forward reverse voronoi (d_diagonal resolution) dir total = Ok x /\ is_finite x = true /\ 0 <= B2R x /\
    Rabs (B2R x - (rate * T + V * (B2R c * I))) <= bpow radix2 (-22) * (rate * T + V * (B2R c * I)) + bpow radix2 (-148) * (V + 1) /\
    ((T = 0 /\ B2R x = 0 /\ B2R c = 0) \/ (0 < T /\ exists r, is_ratio r /\ field r = Ok c /\ T - (1 + bpow radix2 (-11)) * I <= B2R r * T)).
Proof. exact motion_cost. Qed.
Print Assumptions C139_cost.

(** The default factors, cells of one half, a motion of the length three and the path cost one half everywhere. *)
Definition half_field (r : double) : res single := Ok (s_of 1 (-1)).
Lemma half_real : B2R (s_of 1 (-1)) = / 2.
Proof. change (F2R (Float radix2 8388608 (-24)) = / 2). unfold F2R. cbn. lra. Qed.
Example C139_met : costs half_field /\ factor d_one /\ bpow radix2 (-100) <= B2R (s_of 1 (-1)) <= bpow radix2 30 /\ is_finite (d_of 3 0) = true /\ 0 <= B2R (d_of 3 0) <= bpow radix2 40 * B2R (s_of 1 (-1)) /\
  2 * B2R (d_of 3 0) <= INR 20 * B2R (s_of 1 (-1)).
Proof.
  pose proof half_real as E. destruct StraightFloat_proofs.one_real as [F1 E1]. destruct (int_double 3 ltac:(lia)) as [F3 E3]. assert (P : 1000 <= bpow radix2 30) by (apply Rle_trans with (bpow radix2 10); [cbn; lra|apply bpow_le; lia]). assert (P4 : bpow radix2 30 <= bpow radix2 40) by (apply bpow_le; lia).
  split; [intros r _; exists (s_of 1 (-1)); split; [reflexivity|]; split; [reflexivity|lra]|]. split; [split; [exact F1|]; rewrite E1; split; [lra|]; change 1 with (bpow radix2 0); apply bpow_le; lia|].
  rewrite E, E3. split; [split; [change (/ 2) with (bpow radix2 (-1)); apply bpow_le; lia|lra]|]. split; [exact F3|]. split; [lra|]. replace (INR 20) with 20 by (cbn; lra). lra.
Qed.

(** Why the length is bounded: with a diagonal of one and the length 2^54 the place never passes 2^53. *)
Example C139_endless : forall fuel, d_voronoi_cost fuel half_field d_one (s_of 1 0) (d_of 1 54) = NoFuel.
Proof.
  intros fuel. unfold d_voronoi_cost. assert (W : widen (s_of 1 0) = d_one) by (apply B2SF_inj; vm_compute; reflexivity). rewrite W.
  assert (L : forall fuel len c, is_finite len = true -> 0 <= B2R len <= B2R (d_of 1 53) -> d_voronoi_loop fuel half_field (d_of 1 54) d_one len c = NoFuel).
  { assert (LT : B2R (d_of 1 53) < B2R (d_of 1 54)) by (apply dltb; vm_compute; reflexivity). induction fuel0 as [|k IH]; intros len c F B; cbn [d_voronoi_loop]; (assert (EL : Bltb len (d_of 1 54) = true) by (apply dltb; auto; lra)); rewrite EL; [reflexivity|].
    cbn [half_field bind]. destruct (stagnant len F B) as [F' B']. apply IH; assumption. }
  rewrite L; [reflexivity|reflexivity|]. change (B2R d_zero) with 0. split; [lra|]. change 0 with (B2R d_zero). apply dleb; vm_compute; reflexivity.
Qed.
