(** C02 - C08: the A* search. *)
From Coq Require Import Reals.
From Verif Require Import Base Frontier_model Frontier_spec AStar_model AStar_spec AStar_proofs AStar_opt_proofs
  AStarApi_model AStarApi_spec AStarApi_proofs Heuristic_model Heuristic_proofs.

(** C02. On Success, [n] is the node that the planner stores as its solution: there is a path of
    transitions from the initial state to an accepted state, and the three getters describe it. It
    holds for graph and tree search, for any acceptance test and shortcut condition, and for
    propagators with internal state. *)
Theorem C02_success_is_a_path :
  forall (S A C P : Type) (eqs : S -> S -> bool) (ltb : C -> C -> bool) (add : C -> C -> C) (zero : C) (dflt : A)
    (h : S -> C) (succ : P -> S -> list (S * A * C) * P) (issol : S -> bool) (guard : S -> S -> bool) (graph : bool),
    equivalence S eqs -> strict_weak_order C ltb ->
    forall fuel init p n st,
      search_path eqs ltb add zero h succ issol guard graph fuel init p = Ok (Some n, st) ->
      exists l, is_path succ init l (n_state n) /\ issol (n_state n) = true /\
        get_path (Some n) = Ok (path_states init l) /\
        get_actions dflt (Some n) = Ok (path_actions l) /\
        get_optimal_cost zero (Some n) = Some (path_cost add zero l).
Proof. exact @search_sound. Qed.
Print Assumptions C02_success_is_a_path.

(** The search never reads outside a container, pops an empty frontier or throws. *)
Theorem C02_no_undefined_behaviour :
  forall (S A C P : Type) (eqs : S -> S -> bool) (ltb : C -> C -> bool) (add : C -> C -> C) (zero : C)
    (h : S -> C) (succ : P -> S -> list (S * A * C) * P) (issol : S -> bool) (guard : S -> S -> bool) (graph : bool),
    equivalence S eqs -> strict_weak_order C ltb ->
    forall fuel init p,
      match search_path eqs ltb add zero h succ issol guard graph fuel init p with
      | Ok _ => True | NoFuel => True | UB => False | Throw => False end.
Proof. exact @search_no_ub. Qed.
Print Assumptions C02_no_undefined_behaviour.

(** C03. On Failure, no path leads from the initial state to an accepted state (graph and tree
    search). *)
Theorem C03_failure_means_unreachable :
  forall (S A C P : Type) (eqs : S -> S -> bool) (ltb : C -> C -> bool) (add : C -> C -> C) (zero : C)
    (h : S -> C) (succ : P -> S -> list (S * A * C) * P) (issol : S -> bool) (guard : S -> S -> bool) (graph : bool)
    (nb : S -> list (S * A * C)),
    decides_eq eqs -> strict_weak_order C ltb -> deterministic succ nb ->
    forall fuel init p st,
      search_path eqs ltb add zero h succ issol guard graph fuel init p = Ok (None, st) ->
      forall t, reachable succ init t -> issol t = false.
Proof. exact @search_complete. Qed.
Print Assumptions C03_failure_means_unreachable.

Theorem C03_failure_has_no_result :
  forall (S A C : Type) (zero : C), @get_path S A C None = Ok [] /\ @get_optimal_cost S A C zero None = None.
Proof. split; reflexivity. Qed.
Print Assumptions C03_failure_has_no_result.

(** C04, for any cost arithmetic that satisfies [cost_laws]. *)
Theorem C04_graph_search_optimal :
  forall (S A C P : Type) (eqs : S -> S -> bool) (ltb : C -> C -> bool) (add : C -> C -> C) (zero : C)
    (h : S -> C) (succ : P -> S -> list (S * A * C) * P) (issol : S -> bool) (nb : S -> list (S * A * C)),
    decides_eq eqs -> cost_laws ltb add -> deterministic succ nb ->
    consistent succ ltb add h -> cancellable ltb add h ->
    forall fuel init p n st,
      search_path eqs ltb add zero h succ issol (fun _ _ => true) true fuel init p = Ok (Some n, st) ->
      forall l, is_path succ init l (n_state n) -> leb ltb (n_g zero n) (path_cost add zero l).
Proof. exact @search_optimal. Qed.
Print Assumptions C04_graph_search_optimal.

(** C04 over the reals, with consistency as documented at a_star.h:312. *)
Theorem C04_graph_search_optimal_real :
  forall (S A P : Type) (eqs : S -> S -> bool) (h : S -> R) (succ : P -> S -> list (S * A * R) * P) (goal : S)
    (nb : S -> list (S * A * R)),
    decides_eq eqs -> deterministic succ nb ->
    (forall u a c v, trans succ u a c v -> h u - h v <= c)%R ->
    forall fuel init p n st,
      search_path eqs Rltb Rplus 0%R h succ (fun s => eqs s goal) (fun _ _ => true) true fuel init p = Ok (Some n, st) ->
      exists cost, get_optimal_cost 0%R (Some n) = Some cost /\
        forall l, is_path succ init l goal -> (cost <= path_cost Rplus 0 l)%R.
Proof.
  intros S A P eqs h succ goal nb Heq Hdet Hcons fuel init p n st H. exists (n_g 0%R n). split; [reflexivity|].
  intros l Hl. apply leb_R. eapply search_optimal; eauto using R_cost_laws, R_cancellable, R_consistent.
  apply (search_chain) in H; [|now apply decides_eq_equiv|apply (cost_laws_swo _ _ R_cost_laws)].
  destruct H as [_ H]. apply Heq in H. now rewrite H.
Qed.
Print Assumptions C04_graph_search_optimal_real.

(** C04 with any set of solutions: if the heuristic is zero at each of them, no way to any of them is cheaper than what is found. *)
Theorem C04_cheapest_of_all_solutions :
  forall (S A P : Type) (eqs : S -> S -> bool) (h : S -> R) (succ : P -> S -> list (S * A * R) * P) (issol : S -> bool)
    (nb : S -> list (S * A * R)),
    decides_eq eqs -> deterministic succ nb ->
    (forall u a c v, trans succ u a c v -> h u - h v <= c)%R -> (forall t, issol t = true -> h t = 0%R) ->
    forall fuel init p n st,
      search_path eqs Rltb Rplus 0%R h succ issol (fun _ _ => true) true fuel init p = Ok (Some n, st) ->
      exists cost, get_optimal_cost 0%R (Some n) = Some cost /\
        forall l t, is_path succ init l t -> issol t = true -> (cost <= path_cost Rplus 0 l)%R.
Proof.
  intros S A P eqs h succ issol nb Heq Hdet Hcons Hz fuel init p n st H. exists (n_g 0%R n). split; [reflexivity|].
  intros l t Hl Ht. pose proof (search_optimal_any eqs Rltb Rplus 0%R h succ issol nb Heq R_cost_laws Hdet (R_consistent succ h Hcons)
    (R_cancellable h) fuel init p n st H l t Hl Ht) as X. apply leb_R in X.
  apply (search_chain) in H; [|now apply decides_eq_equiv|apply (cost_laws_swo _ _ R_cost_laws)].
  destruct H as [_ H]. rewrite (Hz t Ht), (Hz _ H), !Rplus_0_r in X. exact X.
Qed.
Print Assumptions C04_cheapest_of_all_solutions.

(** C05. Graph search: states passed to the propagator are pairwise different. *)
Theorem C05_expands_once :
  forall (S A C P : Type) (eqs : S -> S -> bool) (ltb : C -> C -> bool) (add : C -> C -> C) (zero : C)
    (h : S -> C) (succ : P -> S -> list (S * A * C) * P) (issol : S -> bool) (guard : S -> S -> bool) (graph : bool),
    equivalence S eqs -> strict_weak_order C ltb ->
    forall fuel init p r st, graph = true ->
      search_path eqs ltb add zero h succ issol guard graph fuel init p = Ok (r, st) ->
      pairwise_distinct eqs (st_queried st).
Proof. exact @search_queries_once. Qed.
Print Assumptions C05_expands_once.

(** C05. With finitely many reachable states the search ends after at most that many expansions. *)
Theorem C05_terminates :
  forall (S A C P : Type) (eqs : S -> S -> bool) (ltb : C -> C -> bool) (add : C -> C -> C) (zero : C) (dflt : A)
    (h : S -> C) (succ : P -> S -> list (S * A * C) * P) (issol : S -> bool) (guard : S -> S -> bool) (graph : bool),
    equivalence S eqs -> strict_weak_order C ltb ->
    forall init K, graph = true -> finitely_reachable succ eqs init K ->
    forall fuel p, length K < fuel ->
    exists r st, search_path eqs ltb add zero h succ issol guard graph fuel init p = Ok (r, st) /\
      length (st_queried st) <= length K.
Proof. exact @search_terminates. Qed.
Print Assumptions C05_terminates.

(** ** A concrete graph, used as non-vacuity example and for counterexamples *)
Definition nat_succ (g : nat -> list (nat * Z)) (_ : unit) (s : nat) : list (nat * unit * Z) * unit :=
  (map (fun e => (fst e, tt, snd e)) (g s), tt).
Definition nat_search (graph : bool) (g : nat -> list (nat * Z)) (h : nat -> Z) (goal init : nat) :=
  search_path Nat.eqb Z.ltb Z.add 0%Z h (nat_succ g) (fun s => Nat.eqb s goal) (fun _ _ => true) graph 100 init tt.
Definition result {X} (r : res (option (node nat unit Z) * X)) : option (res (list nat) * option Z) :=
  match r with
  | Ok (sol, _) => Some (get_path sol, get_optimal_cost 0%Z sol)
  | _ => None
  end.

(** Two ways into state 1; the cheap one is found second. *)
Definition diamond (s : nat) : list (nat * Z) :=
  match s with
  | 0 => [(1, 5%Z); (2, 1%Z)]
  | 2 => [(1, 1%Z)]
  | 1 => [(3, 1%Z)]
  | _ => []
  end.

Example nat_eq_decides : decides_eq Nat.eqb.
Proof. intros s t. apply Nat.eqb_eq. Qed.
Example Z_cost_laws : cost_laws Z.ltb Z.add.
Proof. unfold leb. split; unfold leb; intros; lia. Qed.
Example Z_cancellable : forall h : nat -> Z, cancellable Z.ltb Z.add h.
Proof. intros h g1 g2 s. unfold leb. lia. Qed.
Example nat_deterministic : forall g, deterministic (nat_succ g) (fun s => map (fun e => (fst e, tt, snd e)) (g s)).
Proof. intros g p s. reflexivity. Qed.
Example diamond_consistent : consistent (nat_succ diamond) Z.ltb Z.add (fun _ => 0%Z).
Proof.
  intros g s a c t [p H]. unfold leb.
  do 3 (destruct s as [|s]; [cbn in H; intuition; repeat match goal with H : (_, _, _) = _ |- _ => injection H as <- <- <- end; lia|]).
  cbn in H. easy.
Qed.
Example diamond_reachable : finitely_reachable (nat_succ diamond) Nat.eqb 0 [0; 1; 2; 3].
Proof.
  assert (Hgen : forall l s t, In s [0; 1; 2; 3] -> is_path (nat_succ diamond) s l t -> In t [0; 1; 2; 3]).
  { induction l as [|e l IH]; intros s t Hs Hl; cbn [is_path] in Hl; [now subst|].
    destruct Hl as [[p Ht] Hl]. eapply IH; [|exact Hl].
    destruct Hs as [<-|[<-|[<-|[<-|[]]]]]; cbn in Ht |- *;
      repeat (destruct Ht as [Ht|Ht]; [injection Ht as <- _ _; auto|]); destruct Ht. }
  intros t [l Hl]. exists t. split; [|apply Nat.eqb_refl]. eapply Hgen; [|exact Hl]. now left.
Qed.
(** Graph search succeeds with the optimal cost 3 along 0, 2, 1, 3, replacing the frontier entry. *)
Example diamond_graph : result (nat_search true diamond (fun _ => 0%Z) 3 0) = Some (Ok [0; 2; 1; 3], Some 3%Z).
Proof. vm_compute. reflexivity. Qed.
Example diamond_unreachable : result (nat_search true diamond (fun _ => 0%Z) 9 0) = Some (Ok [], None).
Proof. vm_compute. reflexivity. Qed.

(** C06 is false of the code: with GraphSearch = false and the admissible (even consistent) zero
    heuristic, the search returns a path of cost 6 although a path of cost 3 exists, because the frontier
    rejects the second, cheaper node for state 1. *)
Theorem C06_tree_search_optimal_refuted :
  exists (g : nat -> list (nat * Z)) (init goal : nat) (l : list (unit * Z * nat)),
    (forall s e, In e (g s) -> 0 <= snd e)%Z /\
    is_path (nat_succ g) init l goal /\ path_cost Z.add 0%Z l = 3%Z /\
    result (nat_search false g (fun _ => 0%Z) goal init) = Some (Ok [0; 1; 3], Some 6%Z).
Proof.
  exists diamond, 0, 3, [(tt, 1%Z, 2); (tt, 1%Z, 1); (tt, 1%Z, 3)].
  split; [|split; [|split]].
  - intros s e. do 3 (destruct s as [|s]; [cbn; intuition; subst; cbn; lia|]). easy.
  - cbn. repeat split; exists tt; cbn; auto.
  - reflexivity.
  - vm_compute. reflexivity.
Qed.
Print Assumptions C06_tree_search_optimal_refuted.

(** What does hold of tree search: Success gives a real path with its real cost (C02 with
    [graph = false]) and Failure means unreachable (C03 with [graph = false]). Missing: optimality. *)
Theorem C06_tree_search_sound_complete_partial :
  forall (S A C P : Type) (eqs : S -> S -> bool) (ltb : C -> C -> bool) (add : C -> C -> C) (zero : C) (dflt : A)
    (h : S -> C) (succ : P -> S -> list (S * A * C) * P) (issol : S -> bool) (nb : S -> list (S * A * C)),
    decides_eq eqs -> strict_weak_order C ltb -> deterministic succ nb ->
    forall fuel init p r st,
      search_path eqs ltb add zero h succ issol (fun _ _ => true) false fuel init p = Ok (r, st) ->
      match r with
      | Some n => exists l, is_path succ init l (n_state n) /\ issol (n_state n) = true /\
          get_path r = Ok (path_states init l) /\ get_optimal_cost zero r = Some (path_cost add zero l)
      | None => forall t, reachable succ init t -> issol t = false
      end.
Proof.
  intros S A C P eqs ltb add zero dflt h succ issol nb Heq Hlt Hdet fuel init p [n|] st H.
  - destruct (search_sound _ _ _ _ dflt _ _ _ _ _ (decides_eq_equiv _ Heq) Hlt _ _ _ _ _ H) as (l & H1 & H2 & H3 & _ & H4).
    exists l. auto.
  - eapply search_complete; eauto.
Qed.
Print Assumptions C06_tree_search_sound_complete_partial.

(** Consistency is needed for C04: an admissible but inconsistent heuristic makes graph search return
    13 although 12 is possible (the code never reopens explored states). *)
Definition reopen (s : nat) : list (nat * Z) :=
  match s with
  | 0 => [(1, 1%Z); (2, 3%Z)]
  | 1 => [(2, 1%Z)]
  | 2 => [(3, 10%Z)]
  | _ => []
  end.
Definition reopen_h (s : nat) : Z := match s with 1 => 10%Z | _ => 0%Z end.
Theorem C04_admissible_only_refuted :
  (forall s l, is_path (nat_succ reopen) s l 3 -> (reopen_h s <= path_cost Z.add 0 l)%Z) /\
  (exists l, is_path (nat_succ reopen) 0 l 3 /\ path_cost Z.add 0%Z l = 12%Z) /\
  result (nat_search true reopen reopen_h 3 0) = Some (Ok [0; 2; 3], Some 13%Z).
Proof.
  split; [|split].
  - assert (H3 : forall l, is_path (nat_succ reopen) 3 l 3 -> l = []).
    { intros [|e l]; auto. intros [[p H] _]. easy. }
    assert (H2 : forall l g, is_path (nat_succ reopen) 2 l 3 -> path_cost Z.add g l = (g + 10)%Z).
    { intros [|e l] g; [easy|]. intros [[p H] Hl]. cbn in H. destruct H as [H|[]].
      injection H as Hs _ Hc. rewrite <- Hs in Hl. apply H3 in Hl. subst. cbn. now rewrite <- Hc. }
    assert (Hnn : forall l s t g, (0 <= g)%Z -> is_path (nat_succ reopen) s l t -> (0 <= path_cost Z.add g l)%Z).
    { induction l as [|e l IH]; intros s t g Hg Hl; cbn [is_path] in Hl; auto.
      destruct Hl as [[p H] Hl]. cbn [path_cost fold_left]. eapply (IH _ _ (g + step_cost e)%Z); [|exact Hl].
      do 3 (destruct s as [|s]; [cbn in H; intuition; repeat match goal with H : (_, _, _) = _ |- _ => injection H as ? ? ? end; lia|]).
      easy. }
    intros s l Hl. destruct s as [|[|s]]; cbn [reopen_h].
    + eapply Hnn; [|exact Hl]. lia.
    + destruct l as [|e l]; [easy|]. destruct Hl as [[p H] Hl]. cbn in H. destruct H as [H|[]].
      injection H as Hs _ Hc. rewrite <- Hs in Hl.
      change (path_cost Z.add 0%Z (e :: l)) with (path_cost Z.add (0 + step_cost e)%Z l). rewrite H2 by auto. lia.
    + eapply Hnn; [|exact Hl]. lia.
  - exists [(tt, 1%Z, 1); (tt, 1%Z, 2); (tt, 10%Z, 3)]. split; [|reflexivity].
    cbn. repeat split; exists tt; cbn; auto.
  - vm_compute. reflexivity.
Qed.
Print Assumptions C04_admissible_only_refuted.

(** C07 is false of the code: after a rejected Initialize the next SearchPath reports Failure but the path of
    the previous search is still returned. *)
Definition api_env : env nat unit Z := Env (fun s => map (fun e => (fst e, tt, snd e)) (diamond s)) (fun _ _ => 0%Z).
Theorem C07_results_belong_to_last_search_refuted :
  exists (cs : list (call nat unit Z)) evs pl,
    run_calls Nat.eqb Z.ltb Z.add 0%Z (planner_new 0) cs = Ok (evs, pl) /\
    last_search evs 0 0 None = Some (Failure, 0, 3) /\ get_path (pl_sol pl) = Ok [0; 2; 1; 3].
Proof.
  eexists [Initialize (Some api_env); SetGoalState 3; SearchPath 10; Initialize None; SearchPath 10], _, _.
  split; [vm_compute; reflexivity|]. split; reflexivity.
Qed.
Print Assumptions C07_results_belong_to_last_search_refuted.

(** Full claim of C07 for every history in which no call to Initialize was rejected. Missing: histories
    with a rejected Initialize (false, see above). *)
Theorem C07_results_belong_to_last_search_partial :
  forall (S A C : Type) (eqs : S -> S -> bool) (ltb : C -> C -> bool) (add : C -> C -> C) (zero : C) (dflt : A),
    equivalence S eqs -> strict_weak_order C ltb ->
    forall d (cs : list (call S A C)) evs pl, no_rejected_initialize cs ->
      run_calls eqs ltb add zero (planner_new d) cs = Ok (evs, pl) ->
      exists path, get_path (pl_sol pl) = Ok path /\ path_matches eqs (last_search evs d d None) path.
Proof. exact @api_results_match. Qed.
Print Assumptions C07_results_belong_to_last_search_partial.

Example C07_history :
  let cs := [SearchPath 10; SetGoalState 3; Initialize (Some api_env); SearchPath 10; SetInitState 1; SearchPath 10] in
  no_rejected_initialize cs /\
  exists evs pl, run_calls Nat.eqb Z.ltb Z.add 0%Z (planner_new 0) cs = Ok (evs, pl) /\
    last_search evs 0 0 None = Some (Success, 1, 3) /\ get_path (pl_sol pl) = Ok [1; 3].
Proof.
  split.
  - intros e H. cbn in H. intuition congruence.
  - eexists _, _. split; [vm_compute; reflexivity|]. split; reflexivity.
Qed.

(** C08. The combined heuristic is the largest of its parts; it inherits admissibility ([best s]: the cost of
    an optimal path from [s]) and consistency. *)
Theorem C08_combined_is_maximum :
  forall (S : Type) (hs : list (S -> R)) s, hs <> [] ->
    exists m, combined hs s = Some m /\ (forall hp, In hp hs -> hp s <= m)%R /\ (exists hp, In hp hs /\ m = hp s).
Proof. exact @combined_max. Qed.
Print Assumptions C08_combined_is_maximum.

Theorem C08_combined_admissible :
  forall (S : Type) (best : S -> R) (hs : list (S -> R)), hs <> [] ->
    (forall hp s, In hp hs -> hp s <= best s)%R -> forall s m, combined hs s = Some m -> (m <= best s)%R.
Proof. exact @combined_admissible. Qed.
Print Assumptions C08_combined_admissible.

Theorem C08_combined_consistent :
  forall (S A P : Type) (succ : P -> S -> list (S * A * R) * P) (hs : list (S -> R)), hs <> [] ->
    (forall hp u a c v, In hp hs -> trans succ u a c v -> hp u - hp v <= c)%R ->
    forall u a c v mu mv, trans succ u a c v -> combined hs u = Some mu -> combined hs v = Some mv -> (mu - mv <= c)%R.
Proof. exact @combined_consistent. Qed.
Print Assumptions C08_combined_consistent.

Example C08_case : combined [(fun _ : nat => 1%R); (fun s => INR s)] 3 = Some 3%R.
Proof.
  unfold combined, xmax. cbn. destruct (Rlt_dec 1 (1 + 1 + 1)) as [H|H].
  - f_equal. ring.
  - exfalso. apply H. rewrite <- (Rplus_0_l 1) at 1. apply Rplus_lt_compat_r.
    apply Rplus_lt_0_compat; apply Rlt_0_1.
Qed.
