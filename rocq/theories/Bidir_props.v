(** C11 - C15: bidirectional A*. *)
From Coq Require Import Reals Lra.
From Verif Require Import Base Frontier_model Frontier_spec AStar_model AStar_spec AStar_proofs AStar_opt_proofs Bidir_model
  Bidir_spec Bidir_proofs Bidir_opt_proofs Heuristic_model Heuristic_proofs.

(** C11. On Success the forward half is a path of the forward propagator from the initial state, the
    reverse half a path of the reverse propagator from the goal, and they end in equal states. Graph and
    tree search, any heuristics. *)
Theorem C11_success_is_two_joined_paths :
  forall (S A C Pf Pr : Type) (eqs : S -> S -> bool) (ltb : C -> C -> bool) (add : C -> C -> C) (zero : C) (dflt : A)
    (hf hr : S -> C) (succf : Pf -> S -> list (S * A * C) * Pf) (succr : Pr -> S -> list (S * A * C) * Pr) (graph : bool),
    equivalence S eqs -> strict_weak_order C ltb ->
    forall init goal fuel pf pr b,
      bi_search eqs ltb add zero hf hr succf succr graph fuel init goal pf pr = Ok (true, b) ->
      exists lf lr s s', is_path succf init lf s /\ is_path succr goal lr s' /\ eqs s s' = true /\
        bi_path (b_sol b) = Ok (path_states init lf ++ rev (path_states goal lr)) /\
        bi_cost add zero (b_sol b) = Some (add (path_cost add zero lf) (path_cost add zero lr)).
Proof. exact @bi_sound. Qed.
Print Assumptions C11_success_is_two_joined_paths.

(** C11. No frontier is popped or inspected while empty, and nothing throws. *)
Theorem C11_no_undefined_behaviour :
  forall (S A C Pf Pr : Type) (eqs : S -> S -> bool) (ltb : C -> C -> bool) (add : C -> C -> C) (zero : C)
    (hf hr : S -> C) (succf : Pf -> S -> list (S * A * C) * Pf) (succr : Pr -> S -> list (S * A * C) * Pr) (graph : bool),
    equivalence S eqs -> strict_weak_order C ltb ->
    forall init goal fuel pf pr,
      match bi_search eqs ltb add zero hf hr succf succr graph fuel init goal pf pr with
      | Ok _ => True | NoFuel => True | UB => False | Throw => False end.
Proof. exact @bi_no_ub. Qed.
Print Assumptions C11_no_undefined_behaviour.

(** C11. With finitely many states reachable by the forward search, graph search ends. *)
Theorem C11_terminates :
  forall (S A C Pf Pr : Type) (eqs : S -> S -> bool) (ltb : C -> C -> bool) (add : C -> C -> C) (zero : C) (dflt : A)
    (hf hr : S -> C) (succf : Pf -> S -> list (S * A * C) * Pf) (succr : Pr -> S -> list (S * A * C) * Pr) (graph : bool),
    equivalence S eqs -> strict_weak_order C ltb ->
    forall init goal K, graph = true -> finitely_reachable succf eqs init K ->
    forall fuel pf pr, length K < fuel ->
    exists ok b, bi_search eqs ltb add zero hf hr succf succr graph fuel init goal pf pr = Ok (ok, b).
Proof. exact @bi_terminates. Qed.
Print Assumptions C11_terminates.

(** C12 is false: whenever the search succeeds, the returned list contains a state twice in a row (the
    meeting state). *)
Theorem C12_path_lists_states_once_refuted :
  forall (S A C Pf Pr : Type) (eqs : S -> S -> bool) (ltb : C -> C -> bool) (add : C -> C -> C) (zero : C) (dflt : A)
    (hf hr : S -> C) (succf : Pf -> S -> list (S * A * C) * Pf) (succr : Pr -> S -> list (S * A * C) * Pr) (graph : bool),
    decides_eq eqs -> strict_weak_order C ltb ->
    forall init goal fuel pf pr b,
      bi_search eqs ltb add zero hf hr succf succr graph fuel init goal pf pr = Ok (true, b) ->
      exists p x q, bi_path (b_sol b) = Ok (p ++ x :: x :: q).
Proof. exact @bi_path_repeats. Qed.
Print Assumptions C12_path_lists_states_once_refuted.

(** C12, what holds instead: apart from that repetition the list is a path of forward transitions from the
    initial state to the goal with the reported cost. *)
Theorem C12_path_is_forward_path_partial :
  forall (S A Pf Pr : Type) (eqs : S -> S -> bool) (dflt : A) (hf hr : S -> R)
    (succf : Pf -> S -> list (S * A * R) * Pf) (succr : Pr -> S -> list (S * A * R) * Pr) (graph : bool),
    decides_eq eqs ->
    forall init goal fuel pf pr b, can_go_back_same_cost succr succf ->
      bi_search eqs Rltb Rplus 0%R hf hr succf succr graph fuel init goal pf pr = Ok (true, b) ->
      exists l1 l2 s, is_path succf init (l1 ++ l2) goal /\ is_path succf init l1 s /\
        bi_path (b_sol b) = Ok (path_states init l1 ++ path_states s l2) /\
        bi_cost Rplus 0%R (b_sol b) = Some (path_cost Rplus 0%R (l1 ++ l2)).
Proof. exact @bi_path_forward_R. Qed.
Print Assumptions C12_path_is_forward_path_partial.

(** C13. Graph and tree search, any heuristics. *)
Theorem C13_failure_means_unreachable :
  forall (S A C Pf Pr : Type) (eqs : S -> S -> bool) (ltb : C -> C -> bool) (add : C -> C -> C) (zero : C)
    (hf hr : S -> C) (succf : Pf -> S -> list (S * A * C) * Pf) (succr : Pr -> S -> list (S * A * C) * Pr) (graph : bool)
    (nbf nbr : S -> list (S * A * C)),
    decides_eq eqs -> strict_weak_order C ltb -> deterministic succf nbf -> deterministic succr nbr ->
    forall fuel init goal pf pr b,
      bi_search eqs ltb add zero hf hr succf succr graph fuel init goal pf pr = Ok (false, b) ->
      can_go_back succf succr -> ~ reachable succf init goal.
Proof. exact @bi_complete. Qed.
Print Assumptions C13_failure_means_unreachable.

Theorem C13_failure_has_no_result :
  forall (S A C Pf Pr : Type) (eqs : S -> S -> bool) (ltb : C -> C -> bool) (add : C -> C -> C) (zero : C)
    (hf hr : S -> C) (succf : Pf -> S -> list (S * A * C) * Pf) (succr : Pr -> S -> list (S * A * C) * Pr) (graph : bool),
    equivalence S eqs -> strict_weak_order C ltb ->
    forall init goal fuel pf pr b,
      bi_search eqs ltb add zero hf hr succf succr graph fuel init goal pf pr = Ok (false, b) ->
      bi_path (b_sol b) = Ok [] /\ bi_cost add zero (b_sol b) = None.
Proof. exact @bi_failure_empty. Qed.
Print Assumptions C13_failure_has_no_result.

(** ** Concrete graphs *)
Definition und (es : list (nat * nat * Z)) (_ : unit) (s : nat) : list (nat * unit * Z) * unit :=
  (flat_map (fun e => let '(u, v, c) := e in
     (if Nat.eqb u s then [(v, tt, c)] else []) ++ (if Nat.eqb v s then [(u, tt, c)] else [])) es, tt).
Definition nat_bi (graph : bool) (es : list (nat * nat * Z)) (init goal : nat) :=
  match bi_search Nat.eqb Z.ltb Z.add 0%Z (fun _ => 0%Z) (fun _ => 0%Z) (und es) (und es) graph 20 init goal tt tt with
  | Ok (ok, b) => Some (ok, bi_path (b_sol b), bi_cost Z.add 0%Z (b_sol b))
  | _ => None
  end.

(** 0 - 1 - 2 - 3, and 0 - 4 - 3 a little longer. *)
Definition two_ways : list (nat * nat * Z) :=
  [(0, 4, 59%Z); (4, 3, 59%Z); (0, 1, 30%Z); (1, 2, 30%Z); (2, 3, 30%Z)].

Example C11_example : nat_bi true two_ways 0 3 = Some (true, Ok [0; 4; 4; 3], Some 118%Z).
Proof. vm_compute. reflexivity. Qed.
Example C13_example : nat_bi true [(0, 1, 1%Z); (1, 2, 1%Z); (3, 4, 1%Z)] 0 3 = Some (false, Ok [], None).
Proof. vm_compute. reflexivity. Qed.

(** The undirected propagators can go back. *)
Lemma und_back es : can_go_back_same_cost (und es) (und es).
Proof.
  intros s a c t [p H]. exists a, tt. unfold und in *. cbn [fst] in *. apply in_flat_map in H as ([[u v] d] & Hin & H).
  apply in_flat_map. exists (u, v, d). split; auto. apply in_app_iff in H. apply in_app_iff.
  destruct (Nat.eqb_spec u s), (Nat.eqb_spec v s); cbn in H; destruct H as [H|H]; try easy;
    destruct H as [H|[]]; injection H as <- <- <-; subst.
  - right. rewrite Nat.eqb_refl. cbn. auto.
  - left. rewrite Nat.eqb_refl. cbn. auto.
  - right. rewrite Nat.eqb_refl. cbn. auto.
  - left. rewrite Nat.eqb_refl. cbn. auto.
Qed.

(** C14 is false, even for an undirected graph with positive costs and both heuristics zero (consistent,
    admissible and of constant sum): the search reports 118 although a path of cost 90 exists. *)
Theorem C14_optimal_refuted :
  exists (es : list (nat * nat * Z)) (init goal : nat) b l,
    (forall e, In e es -> (0 < snd e)%Z) /\
    bi_search Nat.eqb Z.ltb Z.add 0%Z (fun _ => 0%Z) (fun _ => 0%Z) (und es) (und es) true 20 init goal tt tt = Ok (true, b) /\
    bi_cost Z.add 0%Z (b_sol b) = Some 118%Z /\
    is_path (und es) init l goal /\ path_cost Z.add 0%Z l = 90%Z.
Proof.
  exists two_ways, 0, 3. eexists. exists [(tt, 30%Z, 1); (tt, 30%Z, 2); (tt, 30%Z, 3)]. split.
  - intros e He. cbn in He. intuition (subst; reflexivity).
  - split; [vm_compute; reflexivity|]. split; [reflexivity|]. split; [|reflexivity].
    repeat split; exists tt; cbn; auto 10.
Qed.
Print Assumptions C14_optimal_refuted.

(** C14, what holds: with consistent non-negative heuristics of constant sum, for every path the reported cost
    exceeds the path's cost by at most the cost of one of its edges plus the increase of the forward
    heuristic along that edge. With zero heuristics the excess is at most the cost of one edge. *)
Theorem C14_optimal_up_to_one_edge_partial :
  forall (S A Pf Pr : Type) (eqs : S -> S -> bool) (hf hr : S -> R)
    (succf : Pf -> S -> list (S * A * R) * Pf) (succr : Pr -> S -> list (S * A * R) * Pr)
    (nbf nbr : S -> list (S * A * R)),
    decides_eq eqs -> deterministic succf nbf -> deterministic succr nbr ->
    consistent_R succf hf -> consistent_R succr hr -> can_go_back_same_cost succf succr ->
    (forall u v, hf u + hr u = hf v + hr v)%R -> (forall s, 0 <= hf s)%R -> (forall s, 0 <= hr s)%R ->
    forall init goal fuel pf pr b,
      bi_search eqs Rltb Rplus 0%R hf hr succf succr true fuel init goal pf pr = Ok (true, b) ->
      exists cost, bi_cost Rplus 0%R (b_sol b) = Some cost /\
        forall l, is_path succf init l goal ->
          (cost <= path_cost Rplus 0 l)%R \/
          exists u e, In (u, e) (path_edges init l) /\
            (cost <= path_cost Rplus 0 l + step_cost e + (hf (step_state e) - hf u))%R.
Proof.
  intros S A Pf Pr eqs hf hr succf succr nbf nbr Heq Hdf Hdr Hcf Hcr Hb Hsum Hpf Hpr init goal fuel pf pr b H.
  destruct (bi_bound_gen eqs hf hr succf succr nbf nbr Heq Hdf Hdr Hcf Hcr Hb init goal fuel pf pr b H) as (c & Hc & _ & Ho).
  eauto.
Qed.
Print Assumptions C14_optimal_up_to_one_edge_partial.

(** C14, what holds: the reported cost is minimal when the search stopped because a frontier ran empty. *)
Theorem C14_optimal_when_exhausted_partial :
  forall (S A Pf Pr : Type) (eqs : S -> S -> bool) (hf hr : S -> R)
    (succf : Pf -> S -> list (S * A * R) * Pf) (succr : Pr -> S -> list (S * A * R) * Pr)
    (nbf nbr : S -> list (S * A * R)),
    decides_eq eqs -> deterministic succf nbf -> deterministic succr nbr ->
    consistent_R succf hf -> consistent_R succr hr -> can_go_back_same_cost succf succr ->
    forall init goal fuel pf pr b,
      bi_search eqs Rltb Rplus 0%R hf hr succf succr true fuel init goal pf pr = Ok (true, b) ->
      vec (st_front (b_f b)) = [] \/ vec (st_front (b_r b)) = [] ->
      exists cost, bi_cost Rplus 0%R (b_sol b) = Some cost /\
        forall l, is_path succf init l goal -> (cost <= path_cost Rplus 0 l)%R.
Proof.
  intros S A Pf Pr eqs hf hr succf succr nbf nbr Heq Hdf Hdr Hcf Hcr Hb init goal fuel pf pr b H He.
  destruct (bi_bound_gen eqs hf hr succf succr nbf nbr Heq Hdf Hdr Hcf Hcr Hb init goal fuel pf pr b H) as (c & Hc & Hx & _).
  eauto.
Qed.
Print Assumptions C14_optimal_when_exhausted_partial.

(** C15. The sum of the two averaged heuristics used by a search does not depend on the state. *)
Theorem C15_sum_is_constant :
  forall (S : Type) (f r : concrete S) (s0 : S) (c0 : R) (init goal u v : S),
    let (hf, hr) := searched_pair f r s0 c0 init goal in
    (a_value hf u + a_value hr u = a_value hf v + a_value hr v)%R.
Proof.
  intros. pose proof (avg_sum f r s0 c0 init goal u). pose proof (avg_sum f r s0 c0 init goal v).
  destruct (searched_pair f r s0 c0 init goal). cbn [fst snd] in *. lra.
Qed.
Print Assumptions C15_sum_is_constant.

(** C15. Both are consistent if the wrapped heuristics are. *)
Theorem C15_average_consistent :
  forall (S A Pf Pr : Type) (f r : concrete S) (s0 : S) (c0 : R) (init goal : S)
    (succf : Pf -> S -> list (S * A * R) * Pf) (succr : Pr -> S -> list (S * A * R) * Pr),
    can_go_back_same_cost succf succr -> can_go_back_same_cost succr succf ->
    consistent_R succf (c_value f) -> consistent_R succr (c_value r) ->
    let (hf, hr) := searched_pair f r s0 c0 init goal in
    consistent_R succf (a_value hf) /\ consistent_R succr (a_value hr).
Proof.
  intros. pose proof (avg_consistent f r s0 c0 init goal succf succr).
  destruct (searched_pair f r s0 c0 init goal). cbn [fst snd] in *. auto.
Qed.
Print Assumptions C15_average_consistent.

(** C15. They are non-negative if the wrapped ones satisfy the triangle inequality through the end points. *)
Theorem C15_average_nonnegative :
  forall (S : Type) (f r : concrete S) (s0 : S) (c0 : R) (init goal : S),
    (forall s, c_value r s <= c_value r goal + c_value f s)%R ->
    (forall s, c_value f s <= c_value f init + c_value r s)%R ->
    let (hf, hr) := searched_pair f r s0 c0 init goal in
    forall s, (0 <= a_value hf s /\ 0 <= a_value hr s)%R.
Proof.
  intros. pose proof (avg_nonneg f r s0 c0 init goal).
  destruct (searched_pair f r s0 c0 init goal). cbn [fst snd] in *. auto.
Qed.
Print Assumptions C15_average_nonnegative.

(** The wrapped heuristics are never told the goal of the search: the pair computed by a search depends on
    the goals they already had. Here both wrap the distance on a line, and the averaged value at the goal
    of the search is not 0 but half the distance to the stale goal. *)
Theorem C15_wrapped_goal_is_stale_refuted :
  exists (dist : R -> R -> R) (stale init goal : R),
    (forall x y, dist x y = Rabs (x - y)) /\
    (a_value (fst (searched_pair (Concrete dist stale) (Concrete dist init) 0 0 init goal)) goal = 5)%R /\
    (a_value (fst (searched_pair (Concrete dist goal) (Concrete dist init) 0 0 init goal)) goal = 0)%R.
Proof.
  exists (fun x y => Rabs (x - y)), 0%R, 0%R, 10%R. split; [auto|]. split.
  - rewrite avg_f. unfold c_value. cbn. replace (10 - 0)%R with 10%R by lra. rewrite Rabs_right; lra.
  - rewrite avg_f. unfold c_value. cbn. replace (10 - 0)%R with 10%R by lra. replace (10 - 10)%R with 0%R by lra.
    rewrite Rabs_R0, Rabs_right; lra.
Qed.
Print Assumptions C15_wrapped_goal_is_stale_refuted.

(** The distances on a line meet the hypotheses of the two C15 theorems above. *)
Definition line (_ : unit) (x : R) : list (R * unit * R) * unit := ([(x + 1, tt, 1); (x - 1, tt, 1)]%R, tt).
Example C15_example :
  can_go_back_same_cost line line /\
  (forall g, consistent_R line (c_value (Concrete (fun x y => Rabs (x - y)) g))) /\
  (forall init goal s, Rabs (s - init) <= Rabs (goal - init) + Rabs (s - goal))%R.
Proof.
  split; [|split].
  - intros s a c t [[] H]. exists tt, tt. cbn in *.
    destruct H as [H|[H|[]]]; injection H as <- <- <-; [right; left|left]; f_equal; f_equal; lra.
  - intros g u a c v [[] H]. cbn in *. unfold c_value. cbn.
    destruct H as [H|[H|[]]]; injection H as <- <- <-; unfold Rabs; repeat destruct Rcase_abs; lra.
  - intros. unfold Rabs. repeat destruct Rcase_abs; lra.
Qed.

(** A search over the reals on the graph 0 - 1 - 2 that meets the hypotheses of the C14 theorems. *)
Definition undR (_ : unit) (s : nat) : list (nat * unit * R) * unit :=
  (match s with 0 => [(1, tt, 1%R)] | 1 => [(0, tt, 1%R); (2, tt, 1%R)] | 2 => [(1, tt, 1%R)] | _ => [] end, tt).
Example C14_example : exists b,
  bi_search Nat.eqb Rltb Rplus 0%R (fun _ => 0%R) (fun _ => 0%R) undR undR true 5 0 2 tt tt = Ok (true, b) /\
  consistent_R undR (fun _ => 0%R) /\ can_go_back_same_cost undR undR.
Proof.
  assert (Hb : can_go_back_same_cost undR undR).
  { intros u a c v [[] H]. exists a, tt. cbn in H.
    destruct u as [|[|[|u]]]; cbn in H; repeat destruct H as [H|H]; try easy; injection H as <- <- <-; cbn; auto. }
  assert (Hc : consistent_R undR (fun _ => 0%R)).
  { intros u a c v [[] Hi]. cbn in Hi. destruct u as [|[|[|u]]]; cbn in Hi; repeat destruct Hi as [Hi|Hi]; try easy; injection Hi as <- <- <-; lra. }
  assert (Heq : decides_eq Nat.eqb) by (intros x y; apply Nat.eqb_eq).
  assert (Hlt := cost_laws_swo _ _ R_cost_laws).
  destruct (bi_terminates Nat.eqb Rltb Rplus 0%R tt (fun _ => 0%R) (fun _ => 0%R) undR undR true
    (decides_eq_equiv _ Heq) Hlt 0 2 [0; 1; 2] eq_refl) with (fuel := 5) (pf := tt) (pr := tt) as (ok & b & H); [|cbn; lia|].
  - intros t [l Hl]. exists t. rewrite Nat.eqb_refl. split; auto.
    assert (Hin : In 0 [0; 1; 2]) by (cbn; auto). revert Hin Hl. set (K := [0; 1; 2]). generalize 0.
    induction l as [|e l IH]; intros s Hin Hl; subst K.
    + cbn [is_path] in Hl. now subst.
    + cbn [is_path] in Hl. destruct Hl as [[p He] Hl]. apply (IH (step_state e)); auto. destruct e as [[a c] v]. cbn in *.
      destruct s as [|[|[|s]]]; cbn in He; repeat destruct He as [He|He]; try easy; injection He as <- <- <-; auto.
  - exists b. split; [|split; assumption].
    destruct ok; [exact H|]. exfalso.
    eapply (bi_complete Nat.eqb Rltb Rplus 0%R _ _ undR undR true (fun s => fst (undR tt s)) (fun s => fst (undR tt s))) in H; try assumption.
    + apply H. exists [(tt, 1%R, 1); (tt, 1%R, 2)]. repeat split; exists tt; cbn; auto.
    + intros [] s. reflexivity.
    + intros [] s. reflexivity.
    + intros s a c t Ht. destruct (Hb s a c t Ht) as [a' Ha]. eauto.
Qed.
