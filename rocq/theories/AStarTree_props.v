(** C06 (what holds of it) and C114: the search with GraphSearch = false. *)
From Coq Require Import Reals Lra.
From Verif Require Import Base RealBase Frontier_model Frontier_spec AStar_model AStar_spec AStar_proofs AStar_opt_proofs
  AStarTree_spec AStarTree_proofs Heuristic_proofs AStar_props.

(** C06. Where all paths to a state cost the same - in particular in a tree - an admissible heuristic is
    enough: the returned solution costs at most as much as any path to any solution. Holds with and
    without GraphSearch. Missing: state spaces with paths of different cost to one state, for which
    [C06_tree_search_optimal_refuted] gives a counterexample. *)
Theorem C06_one_cost_per_state_partial :
  forall (S A C P : Type) (eqs : S -> S -> bool) (ltb : C -> C -> bool) (add : C -> C -> C) (zero : C)
    (h : S -> C) (succ : P -> S -> list (S * A * C) * P) (issol : S -> bool) (guard : S -> S -> bool) (graph : bool)
    (nb : S -> list (S * A * C)),
    decides_eq eqs -> cost_laws ltb add -> deterministic succ nb ->
    forall init, one_cost succ add zero init -> admissible_from succ ltb add h issol init ->
      nonneg_at_solutions ltb add h issol ->
    forall fuel p n st,
      search_path eqs ltb add zero h succ issol guard graph fuel init p = Ok (Some n, st) ->
      forall l t, is_path succ init l t -> issol t = true ->
        exists c, get_optimal_cost zero (Some n) = Some c /\ leb ltb c (path_cost add zero l).
Proof.
  intros S A C P eqs ltb add zero h succ issol guard graph nb Heq Hcost Hdet init Hone Hadm Hpos fuel p n st H l t Hl Ht.
  exists (n_g zero n). split; [reflexivity|]. eapply tree_optimal; eauto.
Qed.
Print Assumptions C06_one_cost_per_state_partial.

(** The same with costs in R and the textbook form of admissibility: [h s] is at most the cost of any path
    from [s] to a solution, and not negative. *)
Theorem C06_one_cost_per_state_real_partial :
  forall (S A P : Type) (eqs : S -> S -> bool) (h : S -> R) (succ : P -> S -> list (S * A * R) * P)
    (issol : S -> bool) (nb : S -> list (S * A * R)),
    decides_eq eqs -> deterministic succ nb ->
    forall init, one_cost succ Rplus 0%R init ->
      (forall s l t, reachable succ init s -> is_path succ s l t -> issol t = true ->
         h s <= path_cost Rplus 0 l)%R ->
      (forall s, 0 <= h s)%R ->
    forall fuel p n st,
      search_path eqs Rltb Rplus 0%R h succ issol (fun _ _ => true) false fuel init p = Ok (Some n, st) ->
      forall l t, is_path succ init l t -> issol t = true ->
        exists c, get_optimal_cost 0%R (Some n) = Some c /\ (c <= path_cost Rplus 0 l)%R.
Proof.
  intros S A P eqs h succ issol nb Heq Hdet init Hone Hadm Hpos fuel p n st H l t Hl Ht.
  assert (Hshift : forall l g, path_cost (S:=S) (A:=A) Rplus g l = (g + path_cost Rplus 0 l)%R).
  { clear. intros l. unfold path_cost. induction l as [|e l IH]; intros g; cbn [fold_left]; [lra|].
    rewrite IH, (IH (0 + _)%R). lra. }
  assert (Hadm' : admissible_from succ Rltb Rplus h issol init).
  { intros g s l0 t0 Hr Hp Hs. apply leb_R. rewrite Hshift. specialize (Hadm s l0 t0 Hr Hp Hs). lra. }
  assert (Hpos' : nonneg_at_solutions Rltb Rplus h issol).
  { intros g t0 _. apply leb_R. specialize (Hpos t0). lra. }
  destruct (C06_one_cost_per_state_partial _ _ _ _ _ _ _ _ _ _ _ _ _ _ Heq R_cost_laws Hdet init Hone Hadm' Hpos'
    _ _ _ _ H l t Hl Ht) as (c & Hc & Hle).
  exists c. split; auto. now apply leb_R.
Qed.
Print Assumptions C06_one_cost_per_state_real_partial.

(** A tree with two leaves that are solutions, and an admissible heuristic that is not consistent: moving
    from 1 (estimate 9) to 3 (estimate 0) costs 4. The search first expands the dearer branch, and still
    returns the cheaper leaf. *)
Definition sapling (s : nat) : list (nat * Z) :=
  match s with
  | 0 => [(1, 1%Z); (2, 3%Z)]
  | 1 => [(3, 4%Z)]
  | 2 => [(4, 8%Z)]
  | 3 => [(5, 5%Z)]
  | 4 => [(6, 1%Z)]
  | _ => []
  end.
Definition sapling_h (s : nat) : Z := match s with 1 => 9%Z | _ => 0%Z end.
Definition sapling_goal (s : nat) : bool := (s =? 5) || (s =? 6).
Definition sapling_search (graph : bool) :=
  search_path Nat.eqb Z.ltb Z.add 0%Z sapling_h (nat_succ sapling) sapling_goal (fun _ _ => true) graph 100 0 tt.

Lemma sapling_step s a c t : trans (nat_succ sapling) s a c t -> In (s, c, t)
  [(0, 1%Z, 1); (0, 3%Z, 2); (1, 4%Z, 3); (2, 8%Z, 4); (3, 5%Z, 5); (4, 1%Z, 6)].
Proof.
  intros [p H]. do 5 (destruct s as [|s]; [cbn in H |- *; intuition congruence|]). destruct H.
Qed.

Definition sapling_g (s : nat) : Z :=
  match s with 1 => 1%Z | 2 => 3%Z | 3 => 5%Z | 4 => 11%Z | 5 => 10%Z | 6 => 12%Z | _ => 0%Z end.
Lemma sapling_cost s l t : is_path (nat_succ sapling) s l t ->
  forall c, path_cost Z.add c l = (c + (sapling_g t - sapling_g s))%Z.
Proof.
  revert s. induction l as [|[[a c] u] l IH]; intros s Hp c0; cbn [is_path] in Hp.
  - subst. cbn. lia.
  - destruct Hp as [Ht Hp]. cbn [step_state step_cost step_action fst snd] in *.
    change (path_cost Z.add c0 ((a, c, u) :: l)) with (path_cost Z.add (c0 + c)%Z l). rewrite (IH u Hp).
    apply sapling_step in Ht. cbn in Ht.
    repeat (destruct Ht as [Ht|Ht]; [injection Ht as <- <- <-; cbn; lia|]). destruct Ht.
Qed.

Lemma sapling_reached s l t : is_path (nat_succ sapling) s l t -> s = 1 -> In t [1; 3; 5].
Proof.
  intros Hp ->. revert Hp. assert (Hgen : forall l s, In s [1; 3; 5] -> is_path (nat_succ sapling) s l t -> In t [1; 3; 5]).
  { clear. induction l as [|e l IH]; intros s Hs Hp; cbn [is_path] in Hp; [now subst|].
    destruct Hp as [Ht Hp]. apply (IH (step_state e)); auto. apply sapling_step in Ht.
    destruct e as [[a c] u]. cbn [step_state step_cost fst snd] in *. cbn in Ht, Hs |- *.
    repeat (destruct Ht as [Ht|Ht]; [injection Ht as <- <- <-; intuition congruence|]). destruct Ht. }
  apply Hgen. cbn. auto.
Qed.

Lemma sapling_nonneg s l t : is_path (nat_succ sapling) s l t -> forall c, (c <= path_cost Z.add c l)%Z.
Proof.
  revert s. induction l as [|[[a c] u] l IH]; intros s Hp c0; cbn [is_path] in Hp; [cbn; lia|].
  destruct Hp as [Ht Hp]. cbn [step_state step_cost step_action fst snd] in *.
  change (path_cost Z.add c0 ((a, c, u) :: l)) with (path_cost Z.add (c0 + c)%Z l). specialize (IH u Hp (c0 + c)%Z).
  apply sapling_step in Ht. cbn in Ht.
  repeat (destruct Ht as [Ht|Ht]; [injection Ht as <- <- <-; lia|]). destruct Ht.
Qed.

Example C06_sapling :
  one_cost (nat_succ sapling) Z.add 0%Z 0 /\
  admissible_from (nat_succ sapling) Z.ltb Z.add sapling_h sapling_goal 0 /\
  nonneg_at_solutions Z.ltb Z.add sapling_h sapling_goal /\
  ~ consistent (nat_succ sapling) Z.ltb Z.add sapling_h /\
  result (sapling_search false) = Some (Ok [0; 1; 3; 5], Some 10%Z) /\
  match sapling_search false with Ok (_, st) => st_queried st = [3; 1; 2; 0] | _ => False end.
Proof.
  split; [|split; [|split; [|split; [|split]]]].
  - intros l1 l2 t H1 H2. now rewrite (sapling_cost _ _ _ H1), (sapling_cost _ _ _ H2).
  - intros g s l t _ Hp Hs. unfold leb. apply Z.ltb_ge. destruct (Nat.eq_dec s 1) as [->|Hn].
    + pose proof (sapling_reached _ _ _ Hp eq_refl) as Hin. rewrite (sapling_cost _ _ _ Hp). cbn in Hin.
      destruct Hin as [<-|[<-|[<-|[]]]]; try discriminate. cbn. lia.
    + assert (Hz : sapling_h s = 0%Z) by (do 2 (destruct s as [|s]; [easy|]); reflexivity).
      rewrite Hz. pose proof (sapling_nonneg _ _ _ Hp g). lia.
  - intros g t Ht. unfold leb. apply Z.ltb_ge. assert (Hz : sapling_h t = 0%Z) by (do 2 (destruct t as [|t]; [easy|]); reflexivity).
    rewrite Hz. lia.
  - intros Hc. specialize (Hc 0%Z 1 tt 4%Z 3 ltac:(exists tt; cbn; auto)). discriminate.
  - vm_compute. reflexivity.
  - vm_compute. reflexivity.
Qed.

(** C114. If no path from the initial state has more than [k] steps, the search ends, after at most as many
    expansions as there are paths. Holds with and without GraphSearch. *)
Theorem C114_ends_if_paths_end :
  forall (S A C P : Type) (eqs : S -> S -> bool) (ltb : C -> C -> bool) (add : C -> C -> C) (zero : C)
    (h : S -> C) (succ : P -> S -> list (S * A * C) * P) (issol : S -> bool) (guard : S -> S -> bool) (graph : bool)
    (nb : S -> list (S * A * C)),
    equivalence S eqs -> strict_weak_order C ltb -> deterministic succ nb ->
    forall init k, paths_at_most succ init k ->
    forall fuel p, count_paths nb k init < fuel ->
    exists r st, search_path eqs ltb add zero h succ issol guard graph fuel init p = Ok (r, st) /\
      length (st_queried st) <= count_paths nb k init.
Proof. exact @bounded_search. Qed.
Print Assumptions C114_ends_if_paths_end.

(** C114. Without GraphSearch the search does not end if there is an endless path (a cycle will do) and no
    solution can be reached: no number of iterations is enough. *)
Theorem C114_endless_without_solution :
  forall (S A C P : Type) (eqs : S -> S -> bool) (ltb : C -> C -> bool) (add : C -> C -> C) (zero : C)
    (h : S -> C) (succ : P -> S -> list (S * A * C) * P) (issol : S -> bool) (guard : S -> S -> bool)
    (nb : S -> list (S * A * C)),
    decides_eq eqs -> strict_weak_order C ltb -> deterministic succ nb ->
    forall init f, endless succ init f -> (forall t, reachable succ init t -> issol t = false) ->
    forall fuel p, search_path eqs ltb add zero h succ issol guard false fuel init p = NoFuel.
Proof. exact @endless_search. Qed.
Print Assumptions C114_endless_without_solution.

(** The sapling has paths of at most three steps, seven of them; the search for a state that is not there
    ends after seven expansions. *)
Example C114_sapling :
  paths_at_most (nat_succ sapling) 0 3 /\
  count_paths (fun s => fst (nat_succ sapling tt s)) 3 0 = 7 /\
  match nat_search false sapling (fun _ => 0%Z) 9 0 with
  | Ok (r, st) => r = None /\ length (st_queried st) = 7
  | _ => False
  end.
Proof.
  split; [|split; vm_compute; auto].
  intros l t Hp. pose (d s := match s with 0 => 3 | 1 => 2 | 2 => 2 | 3 => 1 | 4 => 1 | _ => 0 end).
  assert (Hgen : forall l s, is_path (nat_succ sapling) s l t -> length l <= d s).
  { clear. induction l as [|[[a c] u] l IH]; intros s Hp; cbn [is_path] in Hp; [cbn; lia|].
    destruct Hp as [Ht Hp]. specialize (IH u Hp). apply sapling_step in Ht. cbn in Ht. cbn [length].
    repeat (destruct Ht as [Ht|Ht]; [injection Ht as <- <- <-; cbn in *; lia|]). destruct Ht. }
  apply (Hgen l 0 Hp).
Qed.

(** Two states joined both ways: tree search for a third one runs for ever, graph search gives up after two
    expansions. *)
Definition pair (s : nat) : list (nat * Z) := match s with 0 => [(1, 1%Z)] | 1 => [(0, 1%Z)] | _ => [] end.
Example C114_pair :
  endless (nat_succ pair) 0 (fun i => if Nat.even i then 0 else 1) /\
  (forall t, reachable (nat_succ pair) 0 t -> (t =? 2) = false) /\
  nat_search false pair (fun _ => 0%Z) 2 0 = NoFuel /\
  match nat_search true pair (fun _ => 0%Z) 2 0 with
  | Ok (r, st) => r = None /\ length (st_queried st) = 2
  | _ => False
  end.
Proof.
  split; [|split; [|split]].
  - split; [reflexivity|]. intros i. rewrite Nat.even_succ, <- Nat.negb_even.
    destruct (Nat.even i); exists tt, 1%Z, tt; cbn; auto.
  - intros t [l Hl]. assert (Hgen : forall l s, s < 2 -> is_path (nat_succ pair) s l t -> t < 2).
    { clear. induction l as [|[[a c] u] l IH]; intros s Hs Hp; cbn [is_path] in Hp; [now subst|].
      destruct Hp as [[p Ht] Hp]. apply (IH u); auto. cbn [step_state snd] in Ht.
      destruct s as [|[|s]]; cbn in Ht; [| |lia]; destruct Ht as [Ht|[]]; injection Ht as <- <- <-; lia. }
    specialize (Hgen l 0 ltac:(lia) Hl). apply Nat.eqb_neq. lia.
  - vm_compute. reflexivity.
  - vm_compute. auto.
Qed.
