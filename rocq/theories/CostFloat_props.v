(** C91 and C92: the graph search with costs in double precision. *)
From Coq Require Import Reals ZArith Lra Lia.
From Flocq Require Import Core BinarySingleNaN.
From Verif Require Import Base Frontier_model Frontier_spec AStar_model AStar_spec AStar_proofs AStar_opt_proofs Rounded_spec
  CostFloat_model CostFloat_spec CostFloat_proofs CostFloatSearch_proofs CostFloatN2_proofs.
Local Open Scope R_scope.

(** ** C91 *)
(** Costs that are nonnegative or infinite stay so under addition, are ordered by the comparison, and adding the same cost to two of them does
    not swap them. A NaN breaks the order: it is neither smaller nor larger than 1 and 2, and yet 1 is smaller than 2. *)
Theorem C91_costs_are_ordered : forall x y z : double, d_cost x -> d_cost y -> d_cost z ->
  d_cost (d_add x y) /\ d_ltb x x = false /\ (d_ltb x y = true -> d_ltb y z = true -> d_ltb x z = true) /\
  (d_ltb x y = false -> d_ltb y z = false -> d_ltb x z = false) /\ (d_ltb y x = false -> d_ltb (d_add y z) (d_add x z) = false).
Proof.
  intros x y z Cx Cy Cz. split; [now apply add_cost|].
  pose (x' := exist _ x Cx : costs). pose (y' := exist _ y Cy : costs). pose (z' := exist _ z Cz : costs).
  split; [apply (c_irrefl _ _ _ costs_laws x')|]. split; [apply (c_trans _ _ _ costs_laws x' y' z')|].
  split; [apply (c_incomp _ _ _ costs_laws x' y' z')|apply (c_mono _ _ _ costs_laws x' y' z')].
Qed.
Print Assumptions C91_costs_are_ordered.
Example C91_nan : let nan := B754_nan : double in
  d_ltb (d_of 1 0) nan = false /\ d_ltb nan (d_of 1 0) = false /\ d_ltb (d_of 2 0) nan = false /\ d_ltb nan (d_of 2 0) = false /\ d_ltb (d_of 1 0) (d_of 2 0) = true.
Proof. repeat split. Qed.

(** The search makes no undefined access. *)
Theorem C91_no_undefined_behaviour :
  forall (S A P : Type) (eqs : S -> S -> bool) (h : S -> double) (succ : P -> S -> list (S * A * double) * P) (issol : S -> bool) (init : S),
  equivalence S eqs -> cost_inputs h succ init -> forall fuel p,
  double_search eqs h succ issol fuel init p <> UB /\ double_search eqs h succ issol fuel init p <> Throw.
Proof.
  intros S A P eqs h succ issol init He Hin fuel p. pose proof (double_no_ub eqs h succ issol init Hin fuel p He) as H.
  destruct (double_search eqs h succ issol fuel init p); split; discriminate || contradiction.
Qed.
Print Assumptions C91_no_undefined_behaviour.

(** Success returns a path to a solution and its cost as summed along the path; the sum is the exact one up to an error of [d_unit] per step, unless
    it is infinite. *)
Theorem C91_success_is_a_path :
  forall (S A P : Type) (eqs : S -> S -> bool) (dflt : A) (h : S -> double) (succ : P -> S -> list (S * A * double) * P) (issol : S -> bool) (init : S),
  equivalence S eqs -> cost_inputs h succ init -> forall fuel p n st,
  double_search eqs h succ issol fuel init p = Ok (Some n, st) ->
  exists l c, is_path succ init l (n_state n) /\ issol (n_state n) = true /\
    get_path (Some n) = Ok (path_states init l) /\ get_actions dflt (Some n) = Ok (path_actions l) /\
    get_optimal_cost d_zero (Some n) = Some c /\ c = path_cost d_add d_zero l /\
    (d_finite c -> (1 - d_unit) ^ length l * exact_cost d_value l <= d_value c <= (1 + d_unit) ^ length l * exact_cost d_value l).
Proof.
  intros S A P eqs dflt h succ issol init He Hin fuel p n st E.
  destruct (double_sound eqs dflt h succ issol init Hin fuel p n st He E) as (l & H1 & H2 & H3 & H4 & H5).
  exists l, (path_cost d_add d_zero l). repeat (split; [assumption || reflexivity|]). intros F.
  exact (proj2 (double_exact h succ init Hin l _ H1 F)).
Qed.
Print Assumptions C91_success_is_a_path.

(** Failure means that no solution can be reached. *)
Theorem C91_failure_means_unreachable :
  forall (S A P : Type) (eqs : S -> S -> bool) (h : S -> double) (succ : P -> S -> list (S * A * double) * P) (issol : S -> bool)
    (nb : S -> list (S * A * double)) (init : S),
  decides_eq eqs -> deterministic succ nb -> cost_inputs h succ init -> forall fuel p st,
  double_search eqs h succ issol fuel init p = Ok (None, st) -> forall t, reachable succ init t -> issol t = false.
Proof. intros S A P eqs h succ issol nb init He Hd Hin fuel p st. now apply (double_complete eqs h succ issol init Hin nb). Qed.
Print Assumptions C91_failure_means_unreachable.

(** Without a heuristic the cost returned is the smallest of all sums of doubles along paths to solutions, in spite of the rounding. *)
Theorem C91_dijkstra_is_cheapest :
  forall (S A P : Type) (eqs : S -> S -> bool) (succ : P -> S -> list (S * A * double) * P) (issol : S -> bool)
    (nb : S -> list (S * A * double)) (init : S),
  decides_eq eqs -> deterministic succ nb -> (forall s a c t, reachable succ init s -> trans succ s a c t -> d_cost c) ->
  forall fuel p n st, double_search eqs (fun _ => d_zero) succ issol fuel init p = Ok (Some n, st) ->
  exists c, get_optimal_cost d_zero (Some n) = Some c /\
  forall l t, is_path succ init l t -> issol t = true -> d_ltb (path_cost d_add d_zero l) c = false.
Proof.
  intros S A P eqs succ issol nb init He Hd Hc fuel p n st E. exists (n_g d_zero n). split; [reflexivity|].
  exact (double_dijkstra eqs succ issol nb init He Hd Hc fuel p n st E).
Qed.
Print Assumptions C91_dijkstra_is_cheapest.

(** ** C92 *)
(** The example: two ways to state 1, of cost 5 and 3. The heuristic, 2^53 everywhere but at the solution 3, absorbs the difference: 5 + 2^53 and
    3 + 2^53 are both rounded to 2^53 + 4, so that the cheaper way is not seen to be cheaper. *)
Definition absorb (s : nat) : list (nat * unit * double) :=
  match s with
  | 0 => [(1, tt, d_of 5 0); (2, tt, d_of 3 0)]
  | 2 => [(1, tt, d_zero)]
  | 1 => [(3, tt, d_of (2 ^ 53 + 2) 0)]
  | _ => []
  end%nat.
Definition absorb_h (s : nat) : double := if (s =? 3)%nat then d_zero else d_of 1 53.
Definition absorb_succ (_ : unit) (s : nat) := (absorb s, tt).
Definition absorb_path : list (step nat unit double) := [(tt, d_of 3 0, 2); (tt, d_zero, 1); (tt, d_of (2 ^ 53 + 2) 0, 3)]%nat.

Lemma absorb_edges s a c t : trans absorb_succ s a c t ->
  (s = 0 /\ t = 1 /\ c = d_of 5 0 \/ s = 0 /\ t = 2 /\ c = d_of 3 0 \/ s = 2 /\ t = 1 /\ c = d_zero \/ s = 1 /\ t = 3 /\ c = d_of (2 ^ 53 + 2) 0)%nat.
Proof.
  intros [[] H]. unfold absorb_succ in H. cbn [fst] in H. destruct s as [|[|[|s]]]; unfold absorb in H; cbn [In] in H; repeat (destruct H as [H|H]); try contradiction;
    inversion H; auto 10.
Qed.
Lemma absorb_inputs : cost_inputs absorb_h absorb_succ 0%nat.
Proof.
  split.
  - intros s a c t _ H. apply absorb_edges in H. destruct H as [(_ & _ & ->)|[(_ & _ & ->)|[(_ & _ & ->)|(_ & _ & ->)]]]; vm_compute; auto.
  - intros s _. unfold absorb_h. destruct (s =? 3)%nat; split; vm_compute; auto.
Qed.
Lemma value_of (x : double) m e : B2SF x = SpecFloat.S754_finite false m e -> d_value x = IZR (Zpos m) * bpow radix2 e.
Proof. intros H. destruct x as [s|s| |s m' e' H']; try discriminate. cbn in H. injection H as -> -> ->. reflexivity. Qed.
Lemma absorb_value : d_value (d_of 1 53) = 2 ^ 53 /\ d_value (d_of (2 ^ 53 + 2) 0) = 2 ^ 53 + 2 /\ d_value (d_of 5 0) = 5 /\ d_value (d_of 3 0) = 3.
Proof.
  rewrite (value_of (d_of 1 53) 4503599627370496 1), (value_of (d_of (2 ^ 53 + 2) 0) 4503599627370497 1),
    (value_of (d_of 5 0) 5629499534213120 (-50)), (value_of (d_of 3 0) 6755399441055744 (-51)) by (vm_compute; reflexivity).
  cbn -[Rmult]. repeat split; lra.
Qed.
Lemma absorb_consistent : d_consistent absorb_h absorb_succ 0%nat.
Proof.
  intros s a c t _ H _. apply absorb_edges in H. destruct absorb_value as (V1 & V2 & V3 & V4).
  destruct H as [(-> & -> & ->)|[(-> & -> & ->)|[(-> & -> & ->)|(-> & -> & ->)]]];
    unfold absorb_h; cbn [Nat.eqb]; rewrite ?V1, ?V2, ?V3, ?V4; change (d_value d_zero) with 0; lra.
Qed.

Lemma absorb_is_path : is_path absorb_succ 0%nat absorb_path 3%nat.
Proof. unfold absorb_path. cbn [is_path step_state step_action step_cost fst snd]. repeat split; exists tt; unfold absorb_succ, absorb; cbn [fst In]; auto. Qed.
Lemma absorb_worse :
  match double_search Nat.eqb absorb_h absorb_succ (Nat.eqb 3) 10 0%nat tt with
  | Ok (Some n, _) => d_ltb (path_cost d_add d_zero absorb_path) (n_g d_zero n)
  | _ => false
  end = true.
Proof. vm_compute. reflexivity. Qed.

(** The code documents that a consistent heuristic gives an optimal path (a_star.h:312). In double precision it does not: *)
Theorem C92_consistent_heuristic_is_cheapest_refuted :
  ~ (forall (eqs : nat -> nat -> bool) (h : nat -> double) (succ : unit -> nat -> list (nat * unit * double) * unit) (issol : nat -> bool)
       (nb : nat -> list (nat * unit * double)) (init : nat),
     decides_eq eqs -> deterministic succ nb -> cost_inputs h succ init -> d_consistent h succ init -> (forall t, issol t = true -> d_value (h t) = 0) ->
     forall fuel p n st, double_search eqs h succ issol fuel init p = Ok (Some n, st) ->
     exists c, get_optimal_cost d_zero (Some n) = Some c /\
     forall l t, is_path succ init l t -> issol t = true -> d_ltb (path_cost d_add d_zero l) c = false).
Proof.
  intros H. specialize (H Nat.eqb absorb_h absorb_succ (Nat.eqb 3) absorb 0%nat Nat.eqb_eq (fun _ _ => eq_refl) absorb_inputs absorb_consistent).
  specialize (H ltac:(intros t Ht; apply Nat.eqb_eq in Ht; now subst t) 10%nat tt).
  pose proof absorb_worse as G.
  destruct (double_search Nat.eqb absorb_h absorb_succ (Nat.eqb 3) 10 0%nat tt) as [[[n|] st]| | |]; try discriminate.
  destruct (H n st eq_refl) as (c & E1 & E2). specialize (E2 absorb_path 3%nat absorb_is_path eq_refl).
  unfold get_optimal_cost in E1. assert (c = n_g d_zero n) as -> by congruence. rewrite G in E2. discriminate.
Qed.
Print Assumptions C92_consistent_heuristic_is_cheapest_refuted.

(** What holds: the path found costs at most a factor of 1 + 10 N / 2^53 more than any other, where N bounds the number of steps of both (and is
    at most 2^53 / 5) and the sums stay below a third of the largest double. Missing: that it is the cheapest. *)
Theorem C92_consistent_heuristic_is_near_cheapest_partial :
  forall (S A P : Type) (eqs : S -> S -> bool) (dflt : A) (h : S -> double) (succ : P -> S -> list (S * A * double) * P) (issol : S -> bool)
    (nb : S -> list (S * A * double)) (init : S) (N : nat),
  decides_eq eqs -> deterministic succ nb -> cost_inputs h succ init -> d_consistent h succ init -> (forall t, issol t = true -> d_value (h t) = 0) ->
  5 * INR N * d_unit <= 1 ->
  forall fuel p n st, double_search eqs h succ issol fuel init p = Ok (Some n, st) ->
  exists l, is_path succ init l (n_state n) /\ get_path (Some n) = Ok (path_states init l) /\ get_actions dflt (Some n) = Ok (path_actions l) /\
  forall l' t, is_path succ init l' t -> issol t = true -> finite_steps d_finite l' -> 3 * exact_cost d_value l' <= d_max ->
    (length l <= N)%nat -> (length l' <= N)%nat ->
    finite_steps d_finite l /\ exact_cost d_value l <= (1 + 10 * INR N * d_unit) * exact_cost d_value l'.
Proof. exact @double_near_optimal. Qed.
Print Assumptions C92_consistent_heuristic_is_near_cheapest_partial.

(** The same for a heuristic that is itself off by a relative error of [eta], with the bound in its exact form. *)
Theorem C92_rounded_heuristic_is_near_cheapest_partial :
  forall (S A P : Type) (eqs : S -> S -> bool) (dflt : A) (h : S -> double) (succ : P -> S -> list (S * A * double) * P) (issol : S -> bool)
    (nb : S -> list (S * A * double)) (init : S) (eta : R),
  decides_eq eqs -> deterministic succ nb -> cost_inputs h succ init -> 0 <= eta -> estimate succ d_value d_finite h eta init ->
  forall fuel p n st, double_search eqs h succ issol fuel init p = Ok (Some n, st) ->
  exists c, get_optimal_cost d_zero (Some n) = Some c /\
  forall l t, is_path succ init l t -> issol t = true -> finite_steps d_finite l ->
    growth d_unit eta ^ length l * (exact_cost d_value l + d_value (h t)) <= d_max ->
    d_finite c /\ d_value c + d_value (h (n_state n)) <= growth d_unit eta ^ length l * (exact_cost d_value l + d_value (h t)).
Proof.
  intros S A P eqs dflt h succ issol nb init eta He Hd Hin Heta Hest fuel p n st E. exists (n_g d_zero n). split; [reflexivity|].
  exact (double_near eqs dflt h succ issol init Hin nb eta fuel p n st He Hd Heta Hest E).
Qed.
Print Assumptions C92_rounded_heuristic_is_near_cheapest_partial.

(** Non-vacuity: the example itself; the search takes the more expensive of two paths, 0 1 3 instead of 0 2 1 3, and is off by 4 in 2^53. *)
Example C92_absorb :
  match double_search Nat.eqb absorb_h absorb_succ (Nat.eqb 3) 10 0%nat tt with
  | Ok (s, _) => Some (get_path s, option_map B2SF (get_optimal_cost d_zero s))
  | _ => None
  end = Some (Ok [0; 1; 3]%nat, Some (SpecFloat.S754_finite false 4503599627370500 1)) /\
  B2SF (path_cost d_add d_zero absorb_path) = SpecFloat.S754_finite false 4503599627370498 1.
Proof. split; vm_compute; reflexivity. Qed.
Example C92_absorb_inputs : cost_inputs absorb_h absorb_succ 0%nat /\ d_consistent absorb_h absorb_succ 0%nat /\ 5 * INR 10 * d_unit <= 1.
Proof. split; [exact absorb_inputs|]. split; [exact absorb_consistent|]. rewrite INR_IZR_INZ. unfold d_unit. cbn -[Rmult pow]. lra. Qed.
