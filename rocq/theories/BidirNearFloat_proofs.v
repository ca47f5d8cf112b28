(** The bidirectional search on doubles without estimates is cheapest up to one step and rounding. *)
From Coq Require Import Reals ZArith Lra Lia.
From Flocq Require Import Core BinarySingleNaN.
From Verif Require Import Base Frontier_model Frontier_spec FrontierRel_proofs AStar_model AStar_spec AStar_proofs AStar_opt_proofs Rounded_spec
  RoundedSearch_proofs SearchRel_proofs CostFloat_model CostFloat_spec CostFloat_proofs CostFloatSearch_proofs
  Bidir_model Bidir_spec Bidir_proofs Bidir_opt_proofs BidirFloat_model BidirFloat_spec BidirFloat_proofs BidirSub_proofs BidirNear_proofs.
Local Open Scope R_scope.

Lemma cost_key x : d_cost x -> is_key x.
Proof. intros H. destruct (cost_cases _ H) as [F|F]; [now left|now right]. Qed.

Lemma c_comm (x y : costs) : leb c_ltb (c_add x y) (c_add y x).
Proof.
  apply c_leb. destruct (cost_cases _ (c_ok (c_add x y))) as [F|F].
  - right. assert (G : d_finite (c_dbl (c_add y x)) /\ B2R (c_dbl (c_add x y)) = B2R (c_dbl (c_add y x))); [|destruct G; repeat split; auto; lra].
    cbn [c_add c_dbl proj1_sig] in *. change (proj1_sig x) with (c_dbl x) in *. change (proj1_sig y) with (c_dbl y) in *.
    destruct (cost_cases _ (c_ok x)) as [Fx|Fx]; [|rewrite Fx, add_inf_l in F by apply c_ok; discriminate].
    destruct (cost_cases _ (c_ok y)) as [Fy|Fy]; [|rewrite Fy, add_inf_r in F by apply c_ok; discriminate].
    destruct (add_fin _ _ (c_ok x) (c_ok y) Fx Fy) as [(L & _ & E)|[_ E]]; [|rewrite E in F; discriminate].
    destruct (add_fin _ _ (c_ok y) (c_ok x) Fy Fx) as [(_ & F' & E')|[L' E']].
    + split; auto. rewrite E, E', Rplus_comm. reflexivity.
    + exfalso. rewrite Rplus_comm in L'. lra.
  - left. cbn [c_add c_dbl proj1_sig] in *. change (proj1_sig x) with (c_dbl x) in *. change (proj1_sig y) with (c_dbl y) in *.
    destruct (cost_cases _ (c_ok x)) as [Fx|Fx]; [|rewrite Fx; apply add_inf_r, c_ok].
    destruct (cost_cases _ (c_ok y)) as [Fy|Fy]; [|rewrite Fy; apply add_inf_l, c_ok].
    destruct (add_fin _ _ (c_ok x) (c_ok y) Fx Fy) as [(_ & F' & E)|[L _]]; [rewrite F in F'; discriminate|].
    destruct (add_fin _ _ (c_ok y) (c_ok x) Fy Fx) as [(L' & _ & _)|[_ E']]; auto. exfalso. rewrite Rplus_comm in L'. lra.
Qed.

Lemma big_enough x : x <= 2 ^ 954 -> 2 * x <= d_max.
Proof.
  intros H. unfold d_max. replace (2 ^ 971) with (2 ^ 17 * 2 ^ 954) by (rewrite <- pow_add; reflexivity).
  assert (0 < 2 ^ 954) by (apply pow_lt; lra). assert (1 <= 2 ^ 17) by (apply pow_R1_Rle; lra). assert (3 <= 2 ^ 53 - 1) by (pose proof (pow2_le 2 53 ltac:(lia)); lra). nra.
Qed.

Section Search.
  Context {S A Pf Pr : Type} (eqs : S -> S -> bool) (succf : Pf -> S -> list (S * A * double) * Pf) (succr : Pr -> S -> list (S * A * double) * Pr).
  Context (nbf nbr : S -> list (S * A * double)) (init goal : S).
  Hypothesis Heq : decides_eq eqs.
  Hypothesis Hdf : deterministic succf nbf.
  Hypothesis Hdr : deterministic succr nbr.
  Hypothesis Hback : can_go_back_same_cost succf succr.
  Hypothesis Hf : moderate (fun _ => d_zero) succf init.
  Hypothesis Hr : moderate (fun _ => d_zero) succr goal.
  Notation no := (fun _ : S => d_zero).
  Notation RC := (fun (c : costs) (d : double) => c_dbl c = d).
  Notation Qf := (reachable succf init).
  Notation Qr := (reachable succr goal).

  Lemma inputs {P} (succ : P -> S -> list (S * A * double) * P) s0 : moderate no succ s0 -> cost_inputs no succ s0.
  Proof.
    intros [H _]. split; [intros s a c t H1 H2; apply (H s a c t H1 H2)|]. intros s _. split; [exact I|reflexivity].
  Qed.

  Lemma back_up : can_go_back_same_cost (succ' succf) (succ' succr).
  Proof.
    intros s a c t [p Hp]. cbn in Hp. apply in_map_iff in Hp as ([[t0 a0] c0] & E & Hp). cbn in E. injection E as <- <- <-.
    destruct (Hback s a0 c0 t0 (ex_intro _ p Hp)) as (a' & q & Hq). exists a', q. cbn. apply in_map_iff. exists (s, a', c0). auto.
  Qed.

  Lemma sums_up {P} (succ : P -> S -> list (S * A * double) * P) s0 : moderate no succ s0 -> forall l t, is_path (succ' succ) s0 l t ->
    c_fin (path_cost c_add c_zero l) /\ 2 * c_val (path_cost c_add c_zero l) <= d_max.
  Proof.
    intros Hm l t Hl. apply (path_down no succ s0 (inputs succ s0 Hm) l s0 t (reachable_refl _ _)) in Hl.
    destruct (path_value no succ s0 _ t Hm Hl) as [(_ & F & L) _]. unfold c_fin, c_val. rewrite cost_down. split; [exact F|]. apply big_enough. exact L.
  Qed.

  Notation search' fuel pf pr := (bi_search eqs c_ltb c_add c_zero (fun _ => c_zero) (fun _ => c_zero) (succ' succf) (succ' succr) true fuel init goal pf pr).
  Notation base fuel pf pr := (bi_search eqs k_ltb d_add d_zero no no succf succr true fuel init goal pf pr).

  Lemma same_lifted fuel pf pr : res_rel (fun r r' => fst r = fst r' /\ bi_rel RC Qf Qr (snd r) (snd r')) (search' fuel pf pr) (base fuel pf pr).
  Proof.
    apply bi_search_rel.
    - intros a a' b b' <- <-. symmetry. apply k_same; apply cost_key, c_ok.
    - intros a a' b b' <- <-. reflexivity.
    - reflexivity.
    - reflexivity.
    - reflexivity.
    - apply (succ_rel no succf init (inputs succf init Hf)).
    - apply (succ_rel no succr goal (inputs succr goal Hr)).
    - apply reachable_refl.
    - apply reachable_refl.
    - reflexivity.
  Qed.

  Lemma double_bi_near fuel pf pr b : double_bi eqs no no succf succr true fuel init goal pf pr = Ok (true, b) ->
    exists c, bi_cost d_add d_zero (b_sol b) = Some c /\
      forall l, is_path succf init l goal ->
        d_value c <= (1 + d_unit) ^ (1 + length l) * exact_cost d_value l \/
        exists e, In e l /\ d_value c <= (1 + d_unit) ^ (1 + length l) * (exact_cost d_value l + d_value (step_cost e)).
  Proof.
    intros E. pose proof (double_bi_same eqs no no succf succr true init goal Hf Hr (proj2 Hr goal (reachable_refl _ _)) fuel pf pr) as H. rewrite E in H.
    destruct (base fuel pf pr) as [[o b']| | |] eqn:E'; cbn in H; try contradiction. destruct H as [-> Hsol].
    pose proof (same_lifted fuel pf pr) as H. rewrite E' in H.
    destruct (search' fuel pf pr) as [[o b0]| | |] eqn:E0; cbn in H; try contradiction. destruct H as [-> (_ & _ & _ & Hs)].
    destruct (bi_near eqs c_ltb c_add c_zero c_val c_fin d_unit d_max (succ' succf) (succ' succr) _ _ Heq costs_rounded (det_up succf nbf Hdf) (det_up succr nbr Hdr)
      back_up add_grows (fun x => proj2 (zero_equiv x)) c_comm init goal (sums_up succf init Hf) (sums_up succr goal Hr) fuel pf pr b0 E0) as (mu & Hmu & Hall).
    rewrite Hsol in Hs. destruct (b_sol b0) as [[x y]|], (b_sol b) as [[x' y']|]; cbn in Hs; try contradiction; [|discriminate]. destruct Hs as [Hx Hy].
    cbn in Hmu. injection Hmu as <-. pose proof (rel_g c_zero d_zero RC Qf eq_refl _ _ Hx) as Gx. pose proof (rel_g c_zero d_zero RC Qr eq_refl _ _ Hy) as Gy. cbn beta in Gx, Gy.
    exists (d_add (n_g d_zero x') (n_g d_zero y')). split; [reflexivity|]. intros l Hl.
    assert (V : c_val (c_add (n_g c_zero x) (n_g c_zero y)) = d_value (d_add (n_g d_zero x') (n_g d_zero y'))) by (unfold c_val; rewrite <- Gx, <- Gy; reflexivity).
    destruct (path_up no succf init (inputs succf init Hf) l init goal (reachable_refl _ _) Hl) as [Hl' El].
    destruct (Hall _ Hl') as [[_ B]|(e & He & [_ B])]; rewrite V, map_length, exact_down, El in B; [left; exact B|right].
    exists (down e). split; [|exact B]. rewrite <- El. now apply in_map.
  Qed.
End Search.
