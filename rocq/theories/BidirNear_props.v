(** C126: bidirectional search without estimates, in double precision, is cheapest up to one step and rounding. *)
From Coq Require Import Reals ZArith Lra Lia.
From Flocq Require Import Core BinarySingleNaN.
From Verif Require Import Base Frontier_model Frontier_spec AStar_model AStar_spec AStar_proofs AStar_opt_proofs Rounded_spec Bidir_model Bidir_spec
  CostFloat_model CostFloat_spec CostFloat_proofs BidirFloat_model BidirFloat_spec BidirFloat_proofs BidirNearFloat_proofs.
Local Open Scope R_scope.

(** The cost reported after Success exceeds the exact cost of any path to the goal by at most one step of that path and an error of [d_unit] per addition. *)
Theorem C126_cost_is_nearly_the_smallest :
  forall (S A Pf Pr : Type) (eqs : S -> S -> bool) (succf : Pf -> S -> list (S * A * double) * Pf) (succr : Pr -> S -> list (S * A * double) * Pr)
    (nbf nbr : S -> list (S * A * double)) (init goal : S),
  decides_eq eqs -> deterministic succf nbf -> deterministic succr nbr -> can_go_back_same_cost succf succr ->
  moderate (fun _ => d_zero) succf init -> moderate (fun _ => d_zero) succr goal ->
  forall fuel pf pr b, double_bi eqs (fun _ => d_zero) (fun _ => d_zero) succf succr true fuel init goal pf pr = Ok (true, b) ->
  exists c, bi_cost d_add d_zero (b_sol b) = Some c /\
    forall l, is_path succf init l goal ->
      d_value c <= (1 + d_unit) ^ (1 + length l) * exact_cost d_value l \/
      exists e, In e l /\ d_value c <= (1 + d_unit) ^ (1 + length l) * (exact_cost d_value l + d_value (step_cost e)).
Proof. exact @double_bi_near. Qed.
Print Assumptions C126_cost_is_nearly_the_smallest.

(** The same of the exact cost of the path returned, when no step of the other path costs more than [m]. *)
Theorem C126_path_is_nearly_the_cheapest :
  forall (S A Pf Pr : Type) (eqs : S -> S -> bool) (dflt : A) (succf : Pf -> S -> list (S * A * double) * Pf) (succr : Pr -> S -> list (S * A * double) * Pr)
    (nbf nbr : S -> list (S * A * double)) (init goal : S),
  decides_eq eqs -> deterministic succf nbf -> deterministic succr nbr -> can_go_back_same_cost succf succr ->
  moderate (fun _ => d_zero) succf init -> moderate (fun _ => d_zero) succr goal ->
  forall fuel pf pr b, double_bi eqs (fun _ => d_zero) (fun _ => d_zero) succf succr true fuel init goal pf pr = Ok (true, b) ->
  exists lf lr s, is_path succf init lf s /\ is_path succr goal lr s /\ bi_path (b_sol b) = Ok (path_states init lf ++ rev (path_states goal lr)) /\
    forall l m, is_path succf init l goal -> 0 <= m -> (forall e, In e l -> d_value (step_cost e) <= m) ->
    (1 - d_unit) ^ (1 + length lf + length lr) * (exact_cost d_value lf + exact_cost d_value lr) <= (1 + d_unit) ^ (1 + length l) * (exact_cost d_value l + m).
Proof.
  intros S A Pf Pr eqs dflt succf succr nbf nbr init goal He Df Dr Hb Hf Hr fuel pf pr b E.
  destruct (double_bi_near eqs succf succr nbf nbr init goal He Df Dr Hb Hf Hr fuel pf pr b E) as (c & Hc & Hall).
  destruct (double_bi_sound eqs dflt _ _ succf succr true init goal Hf Hr (proj2 Hr goal (reachable_refl _ _)) fuel pf pr b (decides_eq_equiv eqs He) E)
    as (lf & lr & s & s' & c' & H1 & H2 & H3 & H4 & H5 & _ & _ & H6 & _).
  apply He in H3. subst s'. exists lf, lr, s. repeat (split; [assumption|]). intros l m Hl Hm Hs.
  rewrite Hc in H5. injection H5 as <-. eapply Rle_trans; [exact H6|].
  assert (P : 0 <= (1 + d_unit) ^ (1 + length l)) by (apply pow_le; pose proof unit_range; lra).
  destruct (Hall l Hl) as [B|(e & Hin & B)]; (eapply Rle_trans; [exact B|]; apply Rmult_le_compat_l; auto).
  - lra.
  - pose proof (Hs e Hin). lra.
Qed.
Print Assumptions C126_path_is_nearly_the_cheapest.

(** ** A concrete search: 0 - 1 - 2 - 3 with steps of 30, and 0 - 4 - 3 with steps of 59 *)
Definition ways (s : nat) : list (nat * unit * double) :=
  match s with
  | 0 => [(4, tt, d_of 59 0); (1, tt, d_of 30 0)] | 1 => [(0, tt, d_of 30 0); (2, tt, d_of 30 0)] | 2 => [(1, tt, d_of 30 0); (3, tt, d_of 30 0)]
  | 3 => [(4, tt, d_of 59 0); (2, tt, d_of 30 0)] | 4 => [(0, tt, d_of 59 0); (3, tt, d_of 59 0)] | _ => []
  end%nat.
Definition ways_succ (_ : unit) (s : nat) : list (nat * unit * double) * unit := (ways s, tt).

Lemma d_30 : d_value (d_of 30 0) = 30.
Proof.
  assert (H : B2SF (d_of 30 0) = SpecFloat.S754_finite false (15 * 2 ^ 49) (-48)) by (vm_compute; reflexivity).
  unfold d_value. destruct (d_of 30 0) as [s|s| |s m e H']; try discriminate. cbn in H. injection H as -> -> ->. unfold B2R, F2R. cbn -[Rmult]. lra.
Qed.
Lemma d_59 : d_value (d_of 59 0) = 59.
Proof.
  assert (H : B2SF (d_of 59 0) = SpecFloat.S754_finite false (59 * 2 ^ 47) (-47)) by (vm_compute; reflexivity).
  unfold d_value. destruct (d_of 59 0) as [s|s| |s m e H']; try discriminate. cbn in H. injection H as -> -> ->. unfold B2R, F2R. cbn -[Rmult]. lra.
Qed.
Lemma ways_costs s a c t : trans ways_succ s a c t -> c = d_of 59 0 \/ c = d_of 30 0.
Proof.
  intros [[] H]. unfold ways_succ, ways in H. cbn [fst] in H. destruct s as [|[|[|[|[|s]]]]]; cbn [In] in H; repeat (destruct H as [H|H]); try contradiction;
    injection H as _ _ <-; auto.
Qed.
Lemma ways_moderate s0 : moderate (fun _ => d_zero) ways_succ s0.
Proof.
  assert (B : 59 <= 2 ^ 900) by (pose proof (pow2_le 6 900 ltac:(lia)); cbn -[pow] in *; lra).
  split.
  - intros s a c t _ T. apply ways_costs in T as [-> | ->]; (split; [vm_compute; reflexivity|split; [vm_compute; reflexivity|]]).
    + rewrite d_59, Rabs_pos_eq; lra.
    + rewrite d_30, Rabs_pos_eq; lra.
  - intros s _. left. split; [reflexivity|]. change (d_value d_zero) with 0. rewrite Rabs_R0. lra.
Qed.
Example C126_inputs : decides_eq Nat.eqb /\ deterministic ways_succ ways /\ can_go_back_same_cost ways_succ ways_succ /\
  moderate (fun _ => d_zero) ways_succ 0%nat /\ moderate (fun _ => d_zero) ways_succ 3%nat.
Proof.
  split; [intros x y; apply Nat.eqb_eq|]. split; [intros p s; reflexivity|]. split; [|split; apply ways_moderate].
  intros s a c t [[] H]. exists tt, tt. unfold ways_succ in *. cbn [fst] in *. unfold ways in H.
  destruct s as [|[|[|[|[|s]]]]]; cbn [In] in H; repeat (destruct H as [H|H]); try contradiction; injection H as <- _ <-; cbn [ways In]; auto.
Qed.
(** The search returns the way through 4, which costs 118, although the other one costs 90: nearly one step of 30 more. *)
Example C126_one_step_more :
  match double_bi Nat.eqb (fun _ => d_zero) (fun _ => d_zero) ways_succ ways_succ true 10 0%nat 3%nat tt tt with
  | Ok (ok, b) => Some (ok, bi_path (b_sol b), option_map B2SF (bi_cost d_add d_zero (b_sol b)))
  | _ => None
  end = Some (true, Ok [0; 4; 4; 3]%nat, Some (B2SF (d_of 118 0))) /\
  exists l, is_path ways_succ 0%nat l 3%nat /\ exact_cost d_value l = 90.
Proof.
  split; [vm_compute; reflexivity|]. exists [(tt, d_of 30 0, 1%nat); (tt, d_of 30 0, 2%nat); (tt, d_of 30 0, 3%nat)]. split.
  - cbn [is_path step_state step_action step_cost fst snd]. repeat split; exists tt; unfold ways_succ, ways; cbn [fst In]; auto.
  - cbn [exact_cost step_cost fst snd]. rewrite d_30. lra.
Qed.
