(** Property C140, the costs of Reeds-Shepp paths in floating point. *)
From Coq Require Import Reals ZArith Lra Lia.
From Flocq Require Import Core BinarySingleNaN.
From Verif Require Import Base CoordsFloat_model StraightFloat_model ValidatorFloat_model ObstHeurFloat_model Bicycle_model Composite_model CoordsFloat_proofs CellFloat_proofs CompositeFloat_spec RsFloat_model RsFloat_proofs ObstHeurFloat_proofs
  VoroCostFloat_model VoroCostFloat_spec VoroCostFloat_props RsCostFloat_model RsCostFloat_spec RsCostFloat_proofs.
Local Open Scope R_scope.

(** The cost of a path is the length driven forward and that driven backward, each times its factor, and the cost of the changes of direction, up
    to rounding; unless the factor of the reverse direction is one and a change of direction is free: then that of the forward direction has to
    be one as well. *)
Theorem C140_cost_partial : forall radius reverse forward switching l, drivable radius l -> rate24 reverse -> rate24 forward -> rate24 switching ->
  (shortcut reverse switching -> B2R forward = 1) ->
  let x := s_cost radius reverse forward switching l in let e := expected radius reverse forward switching l in
  is_finite x = true /\ 0 <= B2R x /\ Rabs (B2R x - e) <= haze reverse forward e.
Proof. intros radius reverse forward switching l D HR HF HS Sh x e. destruct D as (F & B & D'). destruct (cost_near radius reverse forward switching F B HR HF HS l (conj F (conj B D')) Sh) as (Q1 & Q2 & _ & Q3). auto. Qed.
Print Assumptions C140_cost_partial.

(** In that case the factor of the forward direction is ignored: three metres forward at the factor two cost three. *)
Definition three_metres : list d_motion := [DMotion SStraight Forward (d_of 3 0)].
Theorem C140_cost_refuted : exists radius reverse forward switching l, drivable radius l /\ rate24 reverse /\ rate24 forward /\ rate24 switching /\
  expected radius reverse forward switching l = 6 /\ B2R (s_cost radius reverse forward switching l) = 3.
Proof.
  exists d_one, s_one, (s_of 2 0), s_zero, three_metres. destruct StraightFloat_proofs.one_real as [F1 E1]. destruct (int_double 3 ltac:(lia)) as [F3 E3]. pose proof ObstHeurFloat_proofs.one_real as [Fs Es]. pose proof zero_real as [F0 E0]. destruct (of_int_real 2 eq_refl) as [F2 E2].
  assert (P : 1000 <= bpow radix2 30) by (apply Rle_trans with (bpow radix2 10); [cbn; lra|apply bpow_le; lia]).
  split. { split; [exact F1|]. rewrite E1. split; [lra|]. split; [cbn; lia|]. intros m [<- |[]]. cbn [dm_len dm_dir]. split; [exact F3|]. rewrite E3. split; [lra|discriminate]. }
  split; [split; [exact Fs|rewrite Es; lra]|]. split; [split; [exact F2|rewrite E2; lra]|]. split; [split; [exact F0|rewrite E0; lra]|].
  split; [unfold expected, three_metres; cbn [along changes direction_eqb dm_dir dm_len INR]; rewrite E1, E2, E3, Es, E0; lra|].
  assert (E : s_cost d_one s_one (s_of 2 0) s_zero three_metres = s_of 3 0) by (apply B2SF_inj; vm_compute; reflexivity). rewrite E. destruct (of_int_real 3 eq_refl) as [_ E3']. exact E3'.
Qed.
Print Assumptions C140_cost_refuted.

(** The solver chooses one of the paths it is offered, and none of the others is cheaper, up to rounding. *)
Theorem C140_optimal_partial : forall radius reverse forward switching l, rate24 reverse -> rate24 forward -> rate24 switching -> (shortcut reverse switching -> B2R forward = 1) ->
  l <> [] -> (forall p, In p l -> drivable radius p) ->
  exists p, s_optimal radius reverse forward switching l = Some p /\ In p l /\
  let e := expected radius reverse forward switching in forall q, In q l -> e p <= e q + 3 * haze reverse forward (e q).
Proof. intros radius reverse forward switching l. exact (optimal_near radius reverse forward switching l). Qed.
Print Assumptions C140_optimal_partial.

(** A path without motions, as the words that do not apply have, is never chosen. *)
Theorem C140_not_empty : forall radius reverse forward switching l p, s_optimal radius reverse forward switching l = Some p -> p <> [].
Proof.
  intros radius reverse forward switching l p. unfold s_optimal. assert (K : forall l best path, path <> Some [] -> s_optimal_loop radius reverse forward switching l best path <> Some []).
  { clear. induction l as [|q l IH]; intros best path N; [exact N|]. cbn [s_optimal_loop]. destruct (Bltb (s_cost radius reverse forward switching q) best) eqn:E; [|apply IH, N]. apply IH. intros X. injection X as ->. cbn [s_cost] in E. destruct best as [|[]| |]; discriminate E. }
  intros H ->. exact (K l s_infinity None ltac:(discriminate) H).
Qed.
Print Assumptions C140_not_empty.

(** The cost of the connection with the goal in Hybrid A* is that of the path plus the Voronoi cost, as in C139, up to rounding. *)
Theorem C140_child_partial : forall fuel field forward reverse switching voronoi resolution radius l, costs field ->
  rate24 (narrow reverse) -> rate24 (narrow forward) -> rate24 (narrow switching) -> (shortcut (narrow reverse) (narrow switching) -> B2R (narrow forward) = 1) -> factor voronoi -> drivable radius l ->
  is_finite resolution = true -> bpow radix2 (-100) <= B2R resolution <= bpow radix2 30 ->
  let T := B2R (d_rs_length radius l) in T <= bpow radix2 40 * B2R resolution -> 2 * T <= INR fuel * B2R resolution ->
  let I := B2R (d_diagonal resolution) in let V := B2R voronoi in let e := expected radius (narrow reverse) (narrow forward) (narrow switching) l in
  exists x c, d_rs_child_cost fuel field forward reverse switching voronoi (d_diagonal resolution) radius l = Ok x /\ is_finite x = true /\ 0 <= B2R x /\
    Rabs (B2R x - (e + V * (B2R c * I))) <= bpow radix2 (-19) * (e + V * (B2R c * I)) + bpow radix2 (-139) * (1 + B2R (narrow forward) + B2R (narrow reverse) + V) /\
    ((T = 0 /\ B2R c = 0) \/ (0 < T /\ exists r, is_ratio r /\ field r = Ok c /\ T - (1 + bpow radix2 (-11)) * I <= B2R r * T)).
Proof. exact child_near. Qed.
Print Assumptions C140_child_partial.

(** Two paths with the radius three: one metre and a half forward, back and forward again, or seven metres and a half forward. With the factor two of the reverse
    direction and a cost of one for each change of direction, the second is the cheaper one. *)
Definition there_and_back : list d_motion := [DMotion SLeft Forward (d_of 1 (-1)); DMotion SRight Backward (d_of 1 (-1)); DMotion SLeft Forward (d_of 1 (-1))].
Definition straight_on : list d_motion := [DMotion SLeft Forward (d_of 1 0); DMotion SStraight Forward (d_of 3 (-1))].
Example C140_met : drivable (d_of 3 0) there_and_back /\ drivable (d_of 3 0) straight_on /\ rate24 (s_of 2 0) /\ rate24 s_one /\ ~ shortcut (s_of 2 0) s_one /\
  changes there_and_back = 2%nat /\ s_optimal (d_of 3 0) (s_of 2 0) s_one s_one [there_and_back; straight_on] = Some straight_on /\
  Beqb (s_cost (d_of 3 0) (s_of 2 0) s_one s_one there_and_back) (s_of 8 0) = true /\ Beqb (s_cost (d_of 3 0) (s_of 2 0) s_one s_one straight_on) (s_of 15 (-1)) = true.
Proof.
  destruct (int_double 3 ltac:(lia)) as [F3 E3]. pose proof ObstHeurFloat_proofs.one_real as [Fs Es]. destruct (of_int_real 2 eq_refl) as [F2 E2].
  assert (P : 1000 <= bpow radix2 30) by (apply Rle_trans with (bpow radix2 10); [cbn; lra|apply bpow_le; lia]).
  assert (Q : forall n, (n = 1 \/ n = 3)%Z -> is_finite (d_of n (-1)) = true /\ 0 <= B2R (d_of n (-1)) <= bpow radix2 30).
  { intros n Hn. assert (B : B2R (d_of n (-1)) = IZR n / 2).
    { destruct Hn as [-> | ->]; [change (F2R (Float radix2 4503599627370496 (-53)) = 1 / 2)|change (F2R (Float radix2 6755399441055744 (-52)) = 3 / 2)]; unfold F2R; cbn; lra. }
    rewrite B. destruct Hn as [-> | ->]; (split; [reflexivity|]); lra. }
  destruct StraightFloat_proofs.one_real as [F1 E1].
  split; [split; [exact F3|]; rewrite E3; split; [lra|]; split; [cbn; lia|]; intros m [<- |[<- |[<- |[]]]]; cbn [dm_len dm_dir]; (split; [apply (Q 1%Z); auto|split; [apply (Q 1%Z); auto|discriminate]])|].
  split; [split; [exact F3|]; rewrite E3; split; [lra|]; split; [cbn; lia|]; intros m [<- |[<- |[]]]; cbn [dm_len dm_dir]; [change (d_of 1 0) with d_one; split; [exact F1|rewrite E1; split; [lra|discriminate]]|split; [apply (Q 3%Z); auto|split; [apply (Q 3%Z); auto|discriminate]]]|].
  split; [split; [exact F2|rewrite E2; lra]|]. split; [split; [exact Fs|rewrite Es; lra]|]. split; [intros [Y _]; rewrite E2 in Y; lra|]. split; [reflexivity|].
  assert (C1 : s_cost (d_of 3 0) (s_of 2 0) s_one s_one there_and_back = s_of 8 0) by (apply B2SF_inj; vm_compute; reflexivity). assert (C2 : s_cost (d_of 3 0) (s_of 2 0) s_one s_one straight_on = s_of 15 (-1)) by (apply B2SF_inj; vm_compute; reflexivity).
  split; [|rewrite C1, C2; split; vm_compute; reflexivity]. unfold s_optimal. cbn [s_optimal_loop]. rewrite C1, C2. assert (L1 : Bltb (s_of 8 0) s_infinity = true) by (vm_compute; reflexivity). assert (L2 : Bltb (s_of 15 (-1)) (s_of 8 0) = true) by (vm_compute; reflexivity). rewrite L1, L2. reflexivity.
Qed.
