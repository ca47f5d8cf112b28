(** C101: bidirectional A* with costs in double precision. *)
From Coq Require Import Reals ZArith Lra Lia.
From Flocq Require Import Core BinarySingleNaN.
From Verif Require Import Base Frontier_model Frontier_spec AStar_model AStar_spec AStar_proofs AStar_opt_proofs Rounded_spec Bidir_model Bidir_spec
  CostFloat_model CostFloat_spec CostFloat_proofs BidirFloat_model BidirFloat_spec BidirFloat_proofs.
Local Open Scope R_scope.

(** The search makes no undefined access, whatever the number of steps: sums of costs of at most 2^900 do not overflow, because a large sum absorbs
    them. *)
Theorem C101_no_undefined_behaviour :
  forall (S A Pf Pr : Type) (eqs : S -> S -> bool) (hf hr : S -> double) (succf : Pf -> S -> list (S * A * double) * Pf)
    (succr : Pr -> S -> list (S * A * double) * Pr) (graph : bool) (init goal : S),
  equivalence S eqs -> moderate hf succf init -> moderate hr succr goal -> within 900 (hf goal) \/ hf goal = d_inf ->
  forall fuel pf pr, double_bi eqs hf hr succf succr graph fuel init goal pf pr <> UB /\ double_bi eqs hf hr succf succr graph fuel init goal pf pr <> Throw.
Proof.
  intros S A Pf Pr eqs hf hr succf succr graph init goal He Hf Hr Hg fuel pf pr.
  pose proof (double_bi_no_ub eqs hf hr succf succr graph init goal Hf Hr Hg fuel pf pr He) as H.
  destruct (double_bi eqs hf hr succf succr graph fuel init goal pf pr); split; discriminate || contradiction.
Qed.
Print Assumptions C101_no_undefined_behaviour.

(** Success returns two paths that meet, and a finite cost, which is the exact one up to an error of [d_unit] per addition. *)
Theorem C101_success_is_two_joined_paths :
  forall (S A Pf Pr : Type) (eqs : S -> S -> bool) (dflt : A) (hf hr : S -> double) (succf : Pf -> S -> list (S * A * double) * Pf)
    (succr : Pr -> S -> list (S * A * double) * Pr) (graph : bool) (init goal : S),
  moderate hf succf init -> moderate hr succr goal -> within 900 (hf goal) \/ hf goal = d_inf ->
  forall fuel pf pr b, equivalence S eqs -> double_bi eqs hf hr succf succr graph fuel init goal pf pr = Ok (true, b) ->
  exists lf lr s s' c, is_path succf init lf s /\ is_path succr goal lr s' /\ eqs s s' = true /\
    bi_path (b_sol b) = Ok (path_states init lf ++ rev (path_states goal lr)) /\ bi_cost d_add d_zero (b_sol b) = Some c /\
    c = d_add (path_cost d_add d_zero lf) (path_cost d_add d_zero lr) /\ d_finite c /\
    (1 - d_unit) ^ (1 + length lf + length lr) * (exact_cost d_value lf + exact_cost d_value lr) <= d_value c <=
    (1 + d_unit) ^ (1 + length lf + length lr) * (exact_cost d_value lf + exact_cost d_value lr).
Proof. exact @double_bi_sound. Qed.
Print Assumptions C101_success_is_two_joined_paths.

(** Failure means that the goal cannot be reached; nothing is returned then. *)
Theorem C101_failure_means_unreachable :
  forall (S A Pf Pr : Type) (eqs : S -> S -> bool) (hf hr : S -> double) (succf : Pf -> S -> list (S * A * double) * Pf)
    (succr : Pr -> S -> list (S * A * double) * Pr) (graph : bool) (nbf nbr : S -> list (S * A * double)) (init goal : S),
  decides_eq eqs -> deterministic succf nbf -> deterministic succr nbr ->
  moderate hf succf init -> moderate hr succr goal -> within 900 (hf goal) \/ hf goal = d_inf -> can_go_back succf succr ->
  forall fuel pf pr b, double_bi eqs hf hr succf succr graph fuel init goal pf pr = Ok (false, b) ->
  ~ reachable succf init goal /\ bi_path (b_sol b) = Ok [] /\ bi_cost d_add d_zero (b_sol b) = None.
Proof.
  intros S A Pf Pr eqs hf hr succf succr graph nbf nbr init goal He Df Dr Hf Hr Hg Hb fuel pf pr b E. split.
  - exact (double_bi_complete eqs hf hr succf succr graph init goal Hf Hr Hg nbf nbr fuel pf pr b He Df Dr E Hb).
  - exact (double_bi_failure eqs hf hr succf succr graph init goal Hf Hr Hg fuel pf pr b (decides_eq_equiv eqs He) E).
Qed.
Print Assumptions C101_failure_means_unreachable.

(** Graph search ends when finitely many states can be reached. *)
Theorem C101_terminates :
  forall (S A Pf Pr : Type) (eqs : S -> S -> bool) (dflt : A) (hf hr : S -> double) (succf : Pf -> S -> list (S * A * double) * Pf)
    (succr : Pr -> S -> list (S * A * double) * Pr) (init goal : S),
  equivalence S eqs -> moderate hf succf init -> moderate hr succr goal -> within 900 (hf goal) \/ hf goal = d_inf ->
  forall K fuel pf pr, finitely_reachable succf eqs init K -> (length K < fuel)%nat ->
  exists ok b, double_bi eqs hf hr succf succr true fuel init goal pf pr = Ok (ok, b).
Proof.
  intros S A Pf Pr eqs dflt hf hr succf succr init goal He Hf Hr Hg K fuel pf pr HK L.
  exact (double_bi_ends eqs dflt hf hr succf succr true init goal Hf Hr Hg K He eq_refl HK fuel pf pr L).
Qed.
Print Assumptions C101_terminates.

(** The average of two estimates is an estimate the theorems above allow: the estimate subtracted must be a number, the other may be infinite. *)
Theorem C101_average_of_estimates :
  forall (S : Type) (toGoal toInit : S -> double) (goal s : S),
  within 898 (toInit goal) -> within 898 (toInit s) -> within 898 (toGoal s) \/ toGoal s = d_inf ->
  within 900 (d_average toGoal toInit goal s) \/ d_average toGoal toInit goal s = d_inf.
Proof. exact @average_within. Qed.
Print Assumptions C101_average_of_estimates.
(** Two infinite estimates give a NaN, which the theorems exclude. *)
Example C101_nan_average : d_average (fun _ : nat => d_inf) (fun s => if (s =? 0)%nat then d_inf else d_zero) 1%nat 0%nat = B754_nan.
Proof. vm_compute. reflexivity. Qed.

(** ** A concrete search: the line 0 - 1 - 2 - 3 with a dead end 4 next to 1, where the estimate is infinite *)
Definition line_cost : double := d_of 3 (-1).
Definition line (_ : unit) (s : nat) : list (nat * unit * double) * unit :=
  (match s with
   | 0 => [(1, tt, line_cost)] | 1 => [(0, tt, line_cost); (2, tt, line_cost); (4, tt, line_cost)] | 2 => [(1, tt, line_cost); (3, tt, line_cost)]
   | 3 => [(2, tt, line_cost)] | 4 => [(1, tt, line_cost)] | _ => []
   end%nat, tt).
Definition to_goal (s : nat) : double := if (s =? 4)%nat then d_inf else d_of (3 - Z.of_nat s) 0.
Definition to_init (s : nat) : double := d_of (Z.of_nat s) 0.
Definition line_hf : nat -> double := d_average to_goal to_init 3%nat.
Definition line_hr : nat -> double := fun s => if (s =? 4)%nat then d_inf else d_average to_init to_goal 0%nat s.

Definition small (x : double) : bool :=
  match x with
  | B754_zero _ => true
  | B754_finite _ m e _ => (Zpos m <=? 2 ^ 60)%Z && (e <=? 0)%Z
  | _ => false
  end.
Lemma small_value n e : (Z.abs n <= 2 ^ 60)%Z -> (e <= 0)%Z -> Rabs (F2R (Float radix2 n e)) <= 2 ^ 900.
Proof.
  intros E1 E2. rewrite <- F2R_Zabs. unfold F2R. cbn [Fnum Fexp].
  assert (H1 : IZR (Z.abs n) <= bpow radix2 60) by (rewrite <- IZR_Zpower by lia; apply IZR_le; exact E1).
  assert (H2 : bpow radix2 e <= bpow radix2 0) by now apply bpow_le.
  assert (H3 : bpow radix2 60 * bpow radix2 0 <= 2 ^ 900) by (rewrite pow_b, <- bpow_plus; apply bpow_le; lia).
  eapply Rle_trans; [|exact H3]. apply Rmult_le_compat; auto; [apply IZR_le; lia|apply bpow_ge_0].
Qed.
Lemma small_within x : small x = true -> within 900 x.
Proof.
  destruct x as [s|s| |s m e H]; try discriminate; intros E.
  - split; [reflexivity|]. change (d_value _) with 0. rewrite Rabs_R0. apply pow_le. lra.
  - unfold small in E. apply andb_prop in E. destruct E as [E1 E2]. apply Z.leb_le in E1, E2. split; [reflexivity|].
    apply small_value; [|exact E2]. now destruct s.
Qed.

Lemma line_step s a c t : trans line s a c t -> c = line_cost /\ (t <= 4)%nat.
Proof.
  intros [[] H]. unfold line in H. cbn [fst] in H. destruct s as [|[|[|[|[|s]]]]]; cbn [In] in H; repeat (destruct H as [H|H]); try contradiction; inversion H; split; auto; lia.
Qed.
Lemma line_states l : forall s t, (s <= 4)%nat -> is_path line s l t -> (t <= 4)%nat.
Proof.
  induction l as [|e l IH]; intros s t Hs H; cbn [is_path] in H; [now subst|]. destruct H as [T H]. apply line_step in T. now apply (IH (step_state e)).
Qed.
Definition okb (x : double) : bool := small x || match x with B754_infinity false => true | _ => false end.
Lemma okb_ok x : okb x = true -> within 900 x \/ x = d_inf.
Proof.
  unfold okb. intros H. apply orb_prop in H. destruct H as [H|H]; [left; now apply small_within|right]. destruct x as [|[|]| |]; try discriminate. reflexivity.
Qed.
Lemma line_moderate (h : nat -> double) s0 : (s0 <= 4)%nat -> forallb (fun s => okb (h s)) [0; 1; 2; 3; 4]%nat = true -> moderate h line s0.
Proof.
  intros H0 H. rewrite forallb_forall in H. split.
  - intros s a c t _ T. apply line_step in T. destruct T as [-> _]. split; [vm_compute; reflexivity|]. apply small_within. vm_compute. reflexivity.
  - intros s [l Hl]. apply okb_ok, H. apply line_states in Hl; auto. destruct s as [|[|[|[|[|s]]]]]; cbn; auto 6. lia.
Qed.

Example C101_line_inputs : moderate line_hf line 0%nat /\ moderate line_hr line 3%nat /\ (within 900 (line_hf 3%nat) \/ line_hf 3%nat = d_inf) /\ can_go_back line line /\
  line_hf 4%nat = d_inf /\ finitely_reachable line Nat.eqb 0%nat [0; 1; 2; 3; 4]%nat.
Proof.
  split; [apply line_moderate; [lia|vm_compute; reflexivity]|]. split; [apply line_moderate; [lia|vm_compute; reflexivity]|].
  split; [apply okb_ok; vm_compute; reflexivity|]. split.
  - intros s a c t [[] H]. exists tt, line_cost. exists tt. unfold line in *. cbn [fst] in *.
    destruct s as [|[|[|[|[|s]]]]]; cbn [In] in H; repeat (destruct H as [H|H]); try contradiction; inversion H; cbn [In]; auto.
  - split; [vm_compute; reflexivity|]. intros t [l Hl]. apply line_states in Hl; [|lia]. exists t. rewrite Nat.eqb_refl. split; auto.
    destruct t as [|[|[|[|[|t]]]]]; cbn; auto 6. lia.
Qed.
Example C101_line :
  match double_bi Nat.eqb line_hf line_hr line line true 10 0%nat 3%nat tt tt with
  | Ok (ok, b) => Some (ok, bi_path (b_sol b), option_map B2SF (bi_cost d_add d_zero (b_sol b)))
  | _ => None
  end = Some (true, Ok [0; 1; 2; 2; 3]%nat, Some (B2SF (d_of 9 (-1)))).
Proof. vm_compute. reflexivity. Qed.

(** Why the costs are bounded: two steps of 2^1023 are each finite, but their sum is infinite, no better than the initial bound, and the search
    reports Failure although the goal is next to the neighbour of the start. *)
Definition huge (_ : unit) (s : nat) : list (nat * unit * double) * unit :=
  (match s with 0 => [(1, tt, d_of 1 1023)] | 1 => [(0, tt, d_of 1 1023); (2, tt, d_of 1 1023)] | 2 => [(1, tt, d_of 1 1023)] | _ => [] end%nat, tt).
Example C101_overflow :
  match double_bi Nat.eqb (fun _ => d_zero) (fun _ => d_zero) huge huge true 10 0%nat 2%nat tt tt with
  | Ok (ok, b) => Some (ok, bi_path (b_sol b))
  | _ => None
  end = Some (false, Ok []) /\ d_finite (d_of 1 1023) /\ reachable huge 0%nat 2%nat.
Proof.
  split; [vm_compute; reflexivity|]. split; [vm_compute; reflexivity|]. exists [(tt, d_of 1 1023, 1%nat); (tt, d_of 1 1023, 2%nat)].
  cbn [is_path step_state step_action step_cost fst snd]. repeat split; exists tt; unfold huge; cbn [fst In]; auto.
Qed.
