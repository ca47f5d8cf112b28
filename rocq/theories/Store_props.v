(** C115: the explored container of [AStar]. *)
From Verif Require Import Base Frontier_model Frontier_spec AStar_model AStar_spec AStar_opt_proofs AStarTree_spec
  Store_model Store_spec Store_proofs AStar_props.

(** C115. [Explored] (a set of states) and [ExploredMap] (a map to nodes) lead to the same result and the same
    calls of the propagator, in the same order; both are the search of C02 - C08. *)
Theorem C115_set_and_map_agree :
  forall (S A C P : Type) (eqs : S -> S -> bool) (ltb : C -> C -> bool) (add : C -> C -> C) (zero : C)
    (h : S -> C) (succ : P -> S -> list (S * A * C) * P) (issol : S -> bool) (guard : S -> S -> bool) (graph : bool)
    fuel init p,
    rmap outcome (search_set eqs ltb add zero h succ issol guard graph fuel init p) =
    rmap (fun x => (fst x, st_prop (snd x), st_queried (snd x)))
      (search_path eqs ltb add zero h succ issol guard graph fuel init p) /\
    rmap outcome (search_map eqs ltb add zero h succ issol guard graph fuel init p) =
    rmap (fun x => (fst x, st_prop (snd x), st_queried (snd x)))
      (search_path eqs ltb add zero h succ issol guard graph fuel init p).
Proof.
  intros. rewrite set_and_map, map_search. split; now destruct (search_path _ _ _ _ _ _ _ _ _ fuel init p).
Qed.
Print Assumptions C115_set_and_map_agree.

(** C115. Without GraphSearch the container makes no difference, whatever it does; [ExploredVoid] in particular. *)
Theorem C115_tree_search_ignores_container :
  forall (S A C P E1 E2 : Type) (eqs : S -> S -> bool) (ltb : C -> C -> bool) (add : C -> C -> C) (zero : C)
    (h : S -> C) (succ : P -> S -> list (S * A * C) * P) (issol : S -> bool) (guard : S -> S -> bool)
    (clear1 : E1) insert1 contains1 (clear2 : E2) insert2 contains2 fuel init p,
    rmap outcome (k_search eqs ltb add zero h succ issol guard false clear1 insert1 contains1 fuel init p) =
    rmap outcome (k_search eqs ltb add zero h succ issol guard false clear2 insert2 contains2 fuel init p).
Proof.
  intros. apply (alike_search eqs ltb add zero h succ issol guard false _ _ _ _ _ _ (fun _ _ => True)); easy.
Qed.
Print Assumptions C115_tree_search_ignores_container.

(** C115. Whatever the container, there is no undefined behaviour, and Success means a real path with its
    real cost. *)
Theorem C115_any_container_is_sound :
  forall (S A C P E : Type) (eqs : S -> S -> bool) (ltb : C -> C -> bool) (add : C -> C -> C) (zero : C)
    (h : S -> C) (succ : P -> S -> list (S * A * C) * P) (issol : S -> bool) (guard : S -> S -> bool) (graph : bool)
    (clear : E) insert contains,
    equivalence S eqs -> strict_weak_order C ltb ->
    forall fuel init p,
      match k_search eqs ltb add zero h succ issol guard graph clear insert contains fuel init p with
      | Ok (Some n, _) => exists l, is_path succ init l (n_state n) /\ issol (n_state n) = true /\
          get_path (Some n) = Ok (path_states init l) /\
          get_optimal_cost zero (Some n) = Some (path_cost add zero l)
      | Ok (None, _) | NoFuel => True
      | _ => False
      end.
Proof.
  intros S A C P E eqs ltb add zero h succ issol guard graph clear insert contains Heqs Hlt fuel init p.
  pose proof (any_no_ub eqs ltb add zero h succ issol guard graph clear insert contains Heqs Hlt fuel init p) as H.
  destruct (k_search _ _ _ _ _ _ _ _ _ _ _ _ fuel init p) as [[[n|] st]| | |] eqn:E0; auto.
  eapply any_search_path; eauto.
Qed.
Print Assumptions C115_any_container_is_sound.

(** C115. Whatever the container, the search ends if paths do, after at most as many expansions as there are
    paths. *)
Theorem C115_any_container_ends_if_paths_end :
  forall (S A C P E : Type) (eqs : S -> S -> bool) (ltb : C -> C -> bool) (add : C -> C -> C) (zero : C)
    (h : S -> C) (succ : P -> S -> list (S * A * C) * P) (issol : S -> bool) (guard : S -> S -> bool) (graph : bool)
    (clear : E) insert contains,
    equivalence S eqs -> strict_weak_order C ltb ->
    forall nb, deterministic succ nb ->
    forall init k, paths_at_most succ init k ->
    forall fuel p, count_paths nb k init < fuel ->
    exists r st, k_search eqs ltb add zero h succ issol guard graph clear insert contains fuel init p = Ok (r, st) /\
      length (k_queried st) <= count_paths nb k init.
Proof. exact @any_bounded. Qed.
Print Assumptions C115_any_container_ends_if_paths_end.

(** C115. With [ExploredVoid] Failure means that no solution can be reached, with and without GraphSearch. *)
Theorem C115_void_failure_means_unreachable :
  forall (S A C P : Type) (eqs : S -> S -> bool) (ltb : C -> C -> bool) (add : C -> C -> C) (zero : C)
    (h : S -> C) (succ : P -> S -> list (S * A * C) * P) (issol : S -> bool) (guard : S -> S -> bool) (graph : bool)
    (nb : S -> list (S * A * C)),
    decides_eq eqs -> strict_weak_order C ltb -> deterministic succ nb ->
    forall fuel init p st,
      search_void eqs ltb add zero h succ issol guard graph fuel init p = Ok (None, st) ->
      forall t, reachable succ init t -> issol t = false.
Proof. exact @void_complete. Qed.
Print Assumptions C115_void_failure_means_unreachable.

(** C115. With GraphSearch and [ExploredVoid] an admissible heuristic is enough for a cheapest path; it need
    not be consistent, as explored states are opened again. (The comment of [ExploredVoid] restricts it to
    tree search, where this does not hold: [C06_tree_search_optimal_refuted].) *)
Theorem C115_void_is_optimal :
  forall (S A C P : Type) (eqs : S -> S -> bool) (ltb : C -> C -> bool) (add : C -> C -> C) (zero : C)
    (h : S -> C) (succ : P -> S -> list (S * A * C) * P) (issol : S -> bool) (nb : S -> list (S * A * C)),
    decides_eq eqs -> cost_laws ltb add -> deterministic succ nb -> cancellable ltb add h ->
    forall init, admissible_from succ ltb add h issol init -> nonneg_at_solutions ltb add h issol ->
    forall fuel p n st,
      search_void eqs ltb add zero h succ issol (fun _ _ => true) true fuel init p = Ok (Some n, st) ->
      forall l t, is_path succ init l t -> issol t = true ->
        exists c, get_optimal_cost zero (Some n) = Some c /\ leb ltb c (path_cost add zero l).
Proof.
  intros S A C P eqs ltb add zero h succ issol nb Heq Hcost Hdet Hcan init Hadm Hpos fuel p n st H l t Hl Ht.
  exists (n_g zero n). split; [reflexivity|]. eapply void_optimal; eauto.
Qed.
Print Assumptions C115_void_is_optimal.

(** C115. With [ExploredVoid] the search does not end if there is an endless path and no solution can be
    reached, even with GraphSearch. *)
Theorem C115_void_endless_without_solution :
  forall (S A C P : Type) (eqs : S -> S -> bool) (ltb : C -> C -> bool) (add : C -> C -> C) (zero : C)
    (h : S -> C) (succ : P -> S -> list (S * A * C) * P) (issol : S -> bool) (guard : S -> S -> bool) (graph : bool)
    (nb : S -> list (S * A * C)),
    decides_eq eqs -> strict_weak_order C ltb -> deterministic succ nb ->
    forall fuel init f p, endless succ init f -> (forall t, reachable succ init t -> issol t = false) ->
    search_void eqs ltb add zero h succ issol guard graph fuel init p = NoFuel.
Proof. exact @void_endless. Qed.
Print Assumptions C115_void_endless_without_solution.

Definition void_search (graph : bool) (g : nat -> list (nat * Z)) (h : nat -> Z) (goal init : nat) :=
  search_void Nat.eqb Z.ltb Z.add 0%Z h (nat_succ g) (fun s => Nat.eqb s goal) (fun _ _ => true) graph 100 init tt.
Definition set_search (graph : bool) (g : nat -> list (nat * Z)) (h : nat -> Z) (goal init : nat) :=
  search_set Nat.eqb Z.ltb Z.add 0%Z h (nat_succ g) (fun s => Nat.eqb s goal) (fun _ _ => true) graph 100 init tt.

(** The graph of [C04_admissible_only_refuted]. With a set of explored states the cost is 13. Without, it is 12:
    state 2 is expanded twice. *)
Example C115_reopened :
  result (set_search true reopen reopen_h 3 0) = Some (Ok [0; 2; 3], Some 13%Z) /\
  result (void_search true reopen reopen_h 3 0) = Some (Ok [0; 1; 2; 3], Some 12%Z) /\
  match void_search true reopen reopen_h 3 0 with Ok (_, st) => k_queried st = [2; 1; 2; 0] | _ => False end /\
  match set_search true reopen reopen_h 3 0 with Ok (_, st) => k_queried st = [1; 2; 0] | _ => False end.
Proof. vm_compute. auto. Qed.

(** Its heuristic satisfies the hypotheses of [C115_void_is_optimal]. *)
Example C115_reopen_admissible :
  admissible_from (nat_succ reopen) Z.ltb Z.add reopen_h (fun s => s =? 3) 0 /\
  nonneg_at_solutions Z.ltb Z.add reopen_h (fun s => s =? 3) /\ cancellable Z.ltb Z.add reopen_h.
Proof.
  assert (Hstep : forall s a c t, trans (nat_succ reopen) s a c t -> In (s, c, t)
    [(0, 1%Z, 1); (0, 3%Z, 2); (1, 1%Z, 2); (2, 10%Z, 3)]).
  { intros s a c t [p H]. do 3 (destruct s as [|s]; [cbn in H |- *; intuition congruence|]). destruct H. }
  pose (d s := match s with 0 => 12%Z | 1 => 11%Z | 2 => 10%Z | _ => 0%Z end).
  assert (Hd : forall l s t, is_path (nat_succ reopen) s l t -> forall g, (g + d s <= path_cost Z.add g l + d t)%Z).
  { induction l as [|[[a c] u] l IH]; intros s t Hp g; cbn [is_path] in Hp; [subst; cbn; lia|].
    destruct Hp as [Ht Hp]. specialize (IH u t Hp (g + c)%Z).
    change (path_cost Z.add g ((a, c, u) :: l)) with (path_cost Z.add (g + c)%Z l).
    apply Hstep in Ht. cbn in Ht.
    repeat (destruct Ht as [Ht|Ht]; [injection Ht as <- <- <-; cbn [d] in *; lia|]). destruct Ht. }
  split; [|split].
  - intros g s l t _ Hp Hs. unfold leb. apply Z.ltb_ge. apply Nat.eqb_eq in Hs. subst t.
    specialize (Hd l s 3 Hp g). assert (Hh : (reopen_h s <= d s)%Z) by (do 3 (destruct s as [|s]; [cbn; lia|]); cbn; lia).
    change (d 3) with 0%Z in Hd. lia.
  - intros g t Ht. apply Nat.eqb_eq in Ht. subst t. unfold leb. apply Z.ltb_ge. cbn. lia.
  - intros g1 g2 s H. unfold leb in *. apply Z.ltb_ge in H. apply Z.ltb_ge. lia.
Qed.

(** Two states joined both ways, and a third that is asked for: with a set of explored states the search ends,
    without it does not. *)
Definition there_and_back (s : nat) : list (nat * Z) := match s with 0 => [(1, 1%Z)] | 1 => [(0, 1%Z)] | _ => [] end.
Example C115_there_and_back :
  endless (nat_succ there_and_back) 0 (fun i => if Nat.even i then 0 else 1) /\
  void_search true there_and_back (fun _ => 0%Z) 2 0 = NoFuel /\
  match set_search true there_and_back (fun _ => 0%Z) 2 0 with Ok (r, _) => r = None | _ => False end.
Proof.
  split; [|vm_compute; auto]. split; [reflexivity|]. intros i. rewrite Nat.even_succ, <- Nat.negb_even.
  destruct (Nat.even i); exists tt, 1%Z, tt; cbn; auto.
Qed.
