(** C130: the connections of the random tree planner in double precision. *)
From Coq Require Import Reals ZArith Lra Lia.
From Flocq Require Import Core BinarySingleNaN.
From Verif Require Import Base Coords_model Straight_model Straight_spec CoordsFloat_model StraightFloat_model Rrt_model Rrt_spec SteerFloat_model SteerFloat_spec SteerFloat_proofs.
Local Open Scope R_scope.

(** The full claim, "a connection is never longer than the maximum connection distance", is false: from (0, 0) towards (25, 0) with distance 7 the new
    state is beyond 7. *)
Theorem C130_never_longer_refuted :
  ~ (forall (d : double) a b M, is_finite d = true -> 0 < B2R d -> within M a -> within M b -> distance (place a) (place (d2_final (d_steer d a b))) <= B2R d).
Proof.
  intros H. destruct seven_real as [F E]. specialize (H (d_of 7 0) origin2 at_25 25 F). rewrite E in H. pose proof too_far as T.
  assert (W1 : within 25 origin2) by (repeat split; cbn; rewrite Rabs_R0; lra).
  assert (W2 : within 25 at_25). { repeat split; cbn [at_25 fst snd]; [rewrite twenty_five_real, Rabs_pos_eq by lra; lra|cbn; rewrite Rabs_R0; lra]. }
  specialize (H ltac:(lra) W1 W2). lra.
Qed.
Print Assumptions C130_never_longer_refuted.

(** And "the length of a path is a number" is false: the difference of two states with finite coordinates may overflow. The planner then stays where it is
    with a path whose length is not a number. *)
Theorem C130_length_refuted :
  ~ (forall (d : double) a b M, is_finite d = true -> 0 < B2R d -> within M a -> within M b -> is_nan (d2_length (d_steer d a b)) = false).
Proof.
  intros H. set (big := d_of 1 1023). set (a := (Bopp big, d_zero) : dpoint). set (b := (big, d_zero) : dpoint).
  assert (K : 0 <= Rabs (B2R big)) by apply Rabs_pos.
  assert (Wa : within (Rabs (B2R big)) a). { unfold a. repeat split; cbn [fst snd]; [rewrite B2R_Bopp, Rabs_Ropp; lra|cbn; rewrite Rabs_R0; exact K]. }
  assert (Wb : within (Rabs (B2R big)) b). { unfold b. repeat split; cbn [fst snd]; [lra|cbn; rewrite Rabs_R0; exact K]. }
  destruct seven_real as [F E]. specialize (H (d_of 7 0) a b _ F ltac:(lra) Wa Wb). vm_compute in H. discriminate.
Qed.
Print Assumptions C130_length_refuted.

(** Up to rounding the new state is the point of the segment at the maximum distance, or the target itself if it is nearer. It is exactly the target
    if this is clearly nearer. The length of the path is its distance, up to rounding. *)
Theorem C130_steer_partial :
  forall (d : double) a b M, is_finite d = true -> bpow radix2 (-400) <= B2R d <= bpow radix2 400 -> within M a -> within M b -> M <= bpow radix2 500 ->
  let p := d_steer d a b in let e := bpow radix2 (-47) * B2R d + bpow radix2 (-50) * M in
  (exists N, within N (d2_final p)) /\
  distance (place (d2_final p)) (towards (B2R d) (place a) (place b)) <= e /\
  distance (place a) (place (d2_final p)) <= B2R d + e /\
  is_finite (d2_length p) = true /\ Rabs (B2R (d2_length p) - Rmin (B2R d) (distance (place a) (place b))) <= bpow radix2 (-48) * B2R d /\
  (distance (place a) (place b) <= (1 - bpow radix2 (-48)) * B2R d -> place (d2_final p) = place b).
Proof. exact steer_result. Qed.
Print Assumptions C130_steer_partial.

(** The path of a successful search: motions that the validator accepted, none longer than the maximum up to rounding, that end within distance one of the
    goal up to rounding. The validator accepts only paths that end within the bounds [M] of the state space. *)
Theorem C130_search_partial :
  forall (d : double) goal valid sample nearest maxIteration maxNode init M t s n,
  is_finite d = true -> bpow radix2 (-400) <= B2R d <= bpow radix2 400 -> M <= bpow radix2 500 -> within M init -> within M goal ->
  (forall it, within M (sample it)) -> (forall p, valid p = true -> (exists N, within N (d2_final p)) -> within M (d2_final p)) ->
  d_rrt d goal valid sample nearest maxIteration maxNode init = Ok (true, t, s, n) ->
  let e := bpow radix2 (-47) * B2R d + bpow radix2 (-50) * M in
  exists l g, get_path t s = Ok l /\
    path_between (fun a b => (exists q, valid (d_steer d a q) = true /\ d2_final (d_steer d a q) = b) /\ distance (place a) (place b) <= B2R d + e) init g l /\
    distance (place g) (place goal) < 1 + bpow radix2 (-49).
Proof. exact rrt_doubles. Qed.
Print Assumptions C130_search_partial.

(** Under these bounds the search ends without undefined behaviour, within its budgets, and no two states of its tree are equal. *)
Theorem C130_terminates_partial :
  forall (d : double) goal valid sample nearest maxIteration maxNode init M,
  is_finite d = true -> bpow radix2 (-400) <= B2R d <= bpow radix2 400 -> M <= bpow radix2 500 -> within M init ->
  (forall it, within M (sample it)) -> (forall p, valid p = true -> (exists N, within N (d2_final p)) -> within M (d2_final p)) ->
  answers nearest -> (0 <= maxIteration < 2147483647)%Z -> (0 <= maxNode)%Z ->
  exists b t s n, d_rrt d goal valid sample nearest maxIteration maxNode init = Ok (b, t, s, n) /\ (0 <= n <= maxIteration + 1)%Z /\
    (Z.of_nat (length t) <= maxNode + 1)%Z /\ all_different d_point_eqb (states t).
Proof. exact rrt_doubles_end. Qed.
Print Assumptions C130_terminates_partial.

(** A search with maximum distance 7 from (0, 0) to (25, 0), whose samples are the goal: two of its states are beyond the multiples of 7. The
    hypotheses are met with the bound 32. *)
Definition demo_valid (p : d2path) : bool := Bltb (Babs (fst (d2_final p))) (d_of 32 0) && Bltb (Babs (snd (d2_final p))) (d_of 32 0).
Definition demo_last (it : Z) (l : list dpoint) (q : dpoint) : nat := (length l - 1)%nat.
Example C130_search : match d_rrt (d_of 7 0) at_25 demo_valid (fun _ => at_25) demo_last 100 100 origin2 with
  | Ok (true, t, s, n) => n = 4%Z /\
      match get_path t s with
      | Ok l => map (fun p => B2SF (fst p)) l = map B2SF [d_zero; d_of 7881299347898369 (-50); d_of 7881299347898369 (-49); d_of 21 0; d_of 25 0]
      | _ => False
      end
  | _ => False
  end.
Proof. vm_compute. split; reflexivity. Qed.
Example C130_hypotheses : is_finite (d_of 7 0) = true /\ bpow radix2 (-400) <= B2R (d_of 7 0) <= bpow radix2 400 /\ 32 <= bpow radix2 500 /\
  within 32 origin2 /\ within 32 at_25 /\ (forall p, demo_valid p = true -> (exists N, within N (d2_final p)) -> within 32 (d2_final p)).
Proof.
  destruct seven_real as [F E]. split; [exact F|]. rewrite E. split; [|split; [|split; [|split]]].
  - split; [apply Rle_trans with (bpow radix2 0); [apply bpow_le; lia|cbn; lra]|apply Rle_trans with (bpow radix2 3); [cbn; lra|apply bpow_le; lia]].
  - change 32 with (bpow radix2 5). apply bpow_le. lia.
  - repeat split; cbn; rewrite Rabs_R0; lra.
  - repeat split; cbn [at_25 fst snd]; [rewrite twenty_five_real, Rabs_pos_eq by lra; lra|cbn; rewrite Rabs_R0; lra].
  - assert (E32 : is_finite (d_of 32 0) = true /\ B2R (d_of 32 0) = 32).
    { split; [reflexivity|]. change (F2R (Float radix2 4503599627370496 (-47)) = 32). unfold F2R. cbn [Fnum Fexp]. change (bpow radix2 (-47)) with (/ 140737488355328). field. }
    destruct E32 as [F32 E32]. intros p H (N & F1 & F2 & _ & _). unfold demo_valid in H. apply andb_prop in H as [H1 H2].
    apply ValidatorFloat_proofs.dltb in H1; [|rewrite is_finite_Babs; exact F1|exact F32]. apply ValidatorFloat_proofs.dltb in H2; [|rewrite is_finite_Babs; exact F2|exact F32].
    rewrite B2R_Babs, E32 in H1, H2. repeat split; auto; lra.
Qed.
