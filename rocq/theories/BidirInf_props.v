(** C118: bidirectional A* in state spaces that may be infinite. *)
From Coq Require Import Reals Lra.
From Verif Require Import Base RealBase Frontier_model Frontier_spec AStar_model AStar_spec AStar_proofs AStar_opt_proofs Heuristic_proofs
  AStarInf_spec AStarInf_proofs Bidir_model Bidir_spec Bidir_proofs Bidir_opt_proofs BidirInf_proofs PlaneTest_model
  PlaneBi_proofs Twin_proofs.

(** If the costs of forward paths grow beyond every bound with their length, with and without the estimates of the forward
    heuristic, and the reverse steps cost at least 0, then a search whose goal is reachable ends with Success, with graph and tree
    search. The reverse heuristic is arbitrary. *)
Theorem C118_finds_a_path :
  forall (S A Pf Pr : Type) (eqs : S -> S -> bool) (hf hr : S -> R)
    (succf : Pf -> S -> list (S * A * R) * Pf) (succr : Pr -> S -> list (S * A * R) * Pr) (graph : bool)
    (nbf nbr : S -> list (S * A * R)),
    decides_eq eqs -> deterministic succf nbf -> deterministic succr nbr -> can_go_back succf succr ->
    forall init goal, steps_cost_at_least succr 0 ->
    costs_grow succf Rltb Rplus 0%R (fun _ => 0%R) init -> costs_grow succf Rltb Rplus 0%R hf init ->
    forall l pf pr, is_path succf init l goal ->
    exists fuel0, forall fuel, fuel0 <= fuel -> exists b,
      bi_search eqs Rltb Rplus 0%R hf hr succf succr graph fuel init goal pf pr = Ok (true, b).
Proof. exact @bi_found. Qed.
Print Assumptions C118_finds_a_path.

(** In particular if no forward step costs less than some positive number and no forward estimate is negative. *)
Theorem C118_finds_a_path_real :
  forall (S A Pf Pr : Type) (eqs : S -> S -> bool) (hf hr : S -> R)
    (succf : Pf -> S -> list (S * A * R) * Pf) (succr : Pr -> S -> list (S * A * R) * Pr) (graph : bool)
    (nbf nbr : S -> list (S * A * R)),
    decides_eq eqs -> deterministic succf nbf -> deterministic succr nbr -> can_go_back succf succr ->
    forall e, (0 < e)%R -> steps_cost_at_least succf e -> steps_cost_at_least succr 0 -> (forall s, (0 <= hf s)%R) ->
    forall init goal l pf pr, is_path succf init l goal ->
    exists fuel0, forall fuel, fuel0 <= fuel -> exists b,
      bi_search eqs Rltb Rplus 0%R hf hr succf succr graph fuel init goal pf pr = Ok (true, b).
Proof. exact @bi_found_real. Qed.
Print Assumptions C118_finds_a_path_real.

(** The plane of the unit test of A*, searched from both ends with the averaged Euclidean distances: for every start and goal the
    search ends with a path, whose cost exceeds that of the shortest path by less than 2.83 (two diagonal steps). *)
Theorem C118_plane : forall start goal, exists fuel0, forall fuel, fuel0 <= fuel -> exists b cost,
  plane_bi fuel start goal = Ok (true, b) /\ bi_cost Rplus 0%R (b_sol b) = Some cost /\
  let dx := IZR (Z.abs (fst start - fst goal)) in let dy := IZR (Z.abs (snd start - snd goal)) in
  let least := Rmax (dx + (sqrt 2 - 1) * dy) (dy + (sqrt 2 - 1) * dx) in
  (least <= cost <= least + 2 * sqrt 2)%R.
Proof. exact plane_bi_found. Qed.
Print Assumptions C118_plane.

(** It is not enough that every step costs something. If on both sides a path meets new states for ever, and costs less, with the
    estimates, than every path of at least one step to a state that the other side can reach, then the search never returns. *)
Theorem C118_endless_if_costs_stay_low :
  forall (S A C Pf Pr : Type) (eqs : S -> S -> bool) (ltb : C -> C -> bool) (add : C -> C -> C) (zero : C) (hf hr : S -> C)
    (succf : Pf -> S -> list (S * A * C) * Pf) (succr : Pr -> S -> list (S * A * C) * Pr) (graph : bool)
    (nbf nbr : S -> list (S * A * C)),
    decides_eq eqs -> cost_laws ltb add -> deterministic succf nbf -> deterministic succr nbr ->
    forall init goal, init <> goal -> forall f r, runaway succf init f -> runaway succr goal r ->
    (forall i l l' t, is_path succf init l (f i) -> is_path succf init l' t -> l' <> [] -> reachable succr goal t ->
       ltb (add (path_cost add zero l) (hf (f i))) (add (path_cost add zero l') (hf t)) = true) ->
    (forall i l l' t, is_path succr goal l (r i) -> is_path succr goal l' t -> l' <> [] -> reachable succf init t ->
       ltb (add (path_cost add zero l) (hr (r i))) (add (path_cost add zero l') (hr t)) = true) ->
    forall fuel pf pr, bi_search eqs ltb add zero hf hr succf succr graph fuel init goal pf pr = NoFuel.
Proof. exact @apart_search. Qed.
Print Assumptions C118_endless_if_costs_stay_low.

(** Steps of length 1/2, 1/4, 1/8, ... on both sides keep the searches from meeting, although one step of length 3 joins them. (Twin_proofs.v) *)
Example C118_twins graph fuel :
  bi_search twin_eqb Rltb Rplus 0%R (fun _ => 0%R) (fun _ => 0%R) (twin_succ true) (twin_succ false) graph fuel (true, 0) (false, 0) tt tt = NoFuel /\
  is_path (twin_succ true) (true, 0) [(tt, 3%R, (false, 0))] (false, 0) /\
  (forall d s a c t, trans (twin_succ d) s a c t -> (0 < c)%R) /\
  can_go_back_same_cost (twin_succ true) (twin_succ false).
Proof.
  split; [|split; [|split]].
  - apply (apart_search twin_eqb Rltb Rplus 0%R (fun _ => 0%R) (fun _ => 0%R) (twin_succ true) (twin_succ false) graph (twin_nb true) (twin_nb false)
      twin_eq R_cost_laws (twin_det true) (twin_det false) (true, 0) (false, 0) ltac:(discriminate) _ _ (twin_runaway true) (twin_runaway false)).
    + intros. eapply (twin_apart true); eauto.
    + intros. eapply (twin_apart false); eauto.
  - cbn. split; auto. exists tt. cbn. auto.
  - intros d [s k] a c t [p H]. cbn [twin_succ twin_nb fst] in H.
    destruct (Bool.eqb s d), k; cbn [In] in H; repeat destruct H as [H|H]; try contradiction; injection H as <- <- <-; try lra; pose proof (twin_half k); pose proof (twin_half (Datatypes.S k)); cbn [pow] in *; lra.
  - intros [s k] a c t [p H]. exists tt, tt. cbn [twin_succ twin_nb fst] in *.
    destruct s, k; cbn [Bool.eqb In] in H; repeat destruct H as [H|H]; try contradiction; injection H as <- <- <-; cbn; auto.
Qed.
