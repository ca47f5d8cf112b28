(** C117: A* in state spaces that may be infinite. *)
From Coq Require Import Reals Lra.
From Verif Require Import Base RealBase Frontier_model Frontier_spec AStar_model AStar_spec AStar_proofs AStar_opt_proofs
  Heuristic_proofs AStarInf_spec AStarInf_proofs PlaneTest_model PlaneTest_proofs Zeno_proofs.

(** If the costs grow beyond every bound along long paths, a search to which a solution is reachable ends with
    Success, for any heuristic, with graph and tree search. There may be infinitely many states. *)
Theorem C117_finds_a_solution :
  forall (S A C P : Type) (eqs : S -> S -> bool) (ltb : C -> C -> bool) (add : C -> C -> C) (zero : C)
    (h : S -> C) (succ : P -> S -> list (S * A * C) * P) (issol : S -> bool) (guard : S -> S -> bool) (graph : bool)
    (nb : S -> list (S * A * C)),
    decides_eq eqs -> cost_laws ltb add -> deterministic succ nb ->
    forall init, costs_grow succ ltb add zero h init ->
    forall p l t, is_path succ init l t -> issol t = true ->
    exists fuel0, forall fuel, fuel0 <= fuel -> exists n st,
      search_path eqs ltb add zero h succ issol guard graph fuel init p = Ok (Some n, st).
Proof. exact @grow_search. Qed.
Print Assumptions C117_finds_a_solution.

(** In particular if no step costs less than some positive number and no estimate is negative. *)
Theorem C117_finds_a_solution_real :
  forall (S A P : Type) (eqs : S -> S -> bool) (h : S -> R) (succ : P -> S -> list (S * A * R) * P)
    (issol : S -> bool) (guard : S -> S -> bool) (graph : bool) (nb : S -> list (S * A * R)),
    decides_eq eqs -> deterministic succ nb ->
    forall e, (0 < e)%R -> steps_cost_at_least succ e -> (forall s, (0 <= h s)%R) ->
    forall init p l t, is_path succ init l t -> issol t = true ->
    exists fuel0, forall fuel, fuel0 <= fuel -> exists n st,
      search_path eqs Rltb Rplus 0%R h succ issol guard graph fuel init p = Ok (Some n, st).
Proof.
  intros S A P eqs h succ issol guard graph nb Heq Hdet e He Hstep Hh init p l t Hl Ht.
  eapply (grow_search eqs Rltb Rplus 0%R h succ issol guard graph nb Heq R_cost_laws Hdet init); eauto.
  exact (real_grow h succ e He Hstep Hh init).
Qed.
Print Assumptions C117_finds_a_solution_real.

(** It is not enough that every step costs something. If a path meets new states for ever, and costs less, with
    the estimates, than every path to a solution, then the search never returns. *)
Theorem C117_endless_if_costs_stay_low :
  forall (S A C P : Type) (eqs : S -> S -> bool) (ltb : C -> C -> bool) (add : C -> C -> C) (zero : C)
    (h : S -> C) (succ : P -> S -> list (S * A * C) * P) (issol : S -> bool) (guard : S -> S -> bool) (graph : bool)
    (nb : S -> list (S * A * C)),
    decides_eq eqs -> cost_laws ltb add -> deterministic succ nb ->
    forall init f, runaway succ init f ->
    (forall i l l' t, is_path succ init l (f i) -> is_path succ init l' t -> issol t = true ->
       ltb (add (path_cost add zero l) (h (f i))) (add (path_cost add zero l') (h t)) = true) ->
    forall fuel p, search_path eqs ltb add zero h succ issol guard graph fuel init p = NoFuel.
Proof. exact @starved_search. Qed.
Print Assumptions C117_endless_if_costs_stay_low.

(** Steps of length 1/2, 1/4, 1/8, ... keep the search from a goal at distance 3. *)
Example C117_zeno graph fuel :
  search_path zeno_eqb Rltb Rplus 0%R (fun _ => 0%R) zeno_succ zeno_goal (fun _ _ => true) graph fuel (Some 0) tt = NoFuel /\
  is_path zeno_succ (Some 0) [(tt, 3%R, None)] None /\
  forall s a c t, trans zeno_succ s a c t -> (0 < c)%R.
Proof.
  split; [apply zeno_endless|]. split.
  - cbn. split; auto. exists tt. cbn. auto.
  - intros s a c t H. apply zeno_trans in H as (k & _ & [[_ ->]|[_ ->]]); [apply half_pos|lra].
Qed.

(** Failure is only reported after all reachable states have been given to the propagator: with infinitely many
    reachable states the search never returns Failure. *)
Theorem C117_failure_means_all_explored :
  forall (S A C P : Type) (eqs : S -> S -> bool) (ltb : C -> C -> bool) (add : C -> C -> C) (zero : C)
    (h : S -> C) (succ : P -> S -> list (S * A * C) * P) (issol : S -> bool) (guard : S -> S -> bool) (graph : bool)
    (nb : S -> list (S * A * C)),
    decides_eq eqs -> strict_weak_order C ltb -> deterministic succ nb ->
    forall fuel init p st,
      search_path eqs ltb add zero h succ issol guard graph fuel init p = Ok (None, st) ->
      forall t, reachable succ init t -> In t (st_queried st).
Proof. exact @fail_search. Qed.
Print Assumptions C117_failure_means_all_explored.

(** The unit test of A*, for every start and goal: in the plane of points with integer coordinates the search ends,
    with a path from the start to the goal whose cost is the least possible one. *)
Theorem C117_unit_test_of_a_star : forall start goal, exists fuel0, forall fuel, fuel0 <= fuel -> exists n st l,
  plane_search fuel start goal = Ok (Some n, st) /\
  is_path plane_succ start l goal /\ get_path (Some n) = Ok (path_states start l) /\
  get_optimal_cost 0%R (Some n) = Some (path_cost Rplus 0%R l) /\
  let dx := IZR (Z.abs (fst start - fst goal)) in let dy := IZR (Z.abs (snd start - snd goal)) in
  path_cost Rplus 0%R l = Rmax (dx + (sqrt 2 - 1) * dy) (dy + (sqrt 2 - 1) * dx) /\
  forall l', is_path plane_succ start l' goal -> (path_cost Rplus 0 l <= path_cost Rplus 0 l')%R.
Proof.
  intros start goal. destruct (plane_found start goal) as (f0 & Hf). exists f0. intros fuel Hfuel.
  destruct (Hf fuel Hfuel) as (n & st & H & Hs & Hg).
  pose proof H as Hsnd. apply search_sound with (dflt := tt) in Hsnd;
    [|apply (decides_eq_equiv _ pt_eq)|apply (cost_laws_swo _ _ R_cost_laws)].
  destruct Hsnd as (l & Hl & _ & Hp & _ & Hc). rewrite Hs in Hl. exists n, st, l.
  split; [exact H|]. split; [exact Hl|]. split; [exact Hp|]. split; [exact Hc|].
  assert (E : path_cost Rplus 0%R l = octile (away goal start)) by (cbn [get_optimal_cost] in Hc; congruence).
  split; [exact E|]. intros l' Hl'. rewrite E. pose proof (octile_path l' start goal 0%R Hl'). lra.
Qed.
Print Assumptions C117_unit_test_of_a_star.

(** The points of the test. *)
Example C117_test_points : octile (away (10, 5)%Z (0, 0)%Z) = (5 + 5 * sqrt 2)%R.
Proof.
  unfold octile, away. cbn [fst snd Z.sub Z.abs Z.opp Z.add]. rewrite Rmax_left; [lra|].
  pose proof sqrt2_bounds. lra.
Qed.
