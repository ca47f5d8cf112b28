(** Specification vocabulary for graph search: transitions, paths, costs, consistency. *)
From Verif Require Import Base.

Section Paths.
  Variables (S A C P : Type).
  Variable succ : P -> S -> list (S * A * C) * P.

  (** The propagator offers the transition from [s] to [t] by action [a] at cost [c]. *)
  Definition trans (s : S) (a : A) (c : C) (t : S) : Prop :=
    exists p, In (t, a, c) (fst (succ p s)).

  (** A path is a list of steps: action, cost and state reached. *)
  Definition step : Type := A * C * S.
  Definition step_action (e : step) : A := fst (fst e).
  Definition step_cost (e : step) : C := snd (fst e).
  Definition step_state (e : step) : S := snd e.

  Fixpoint is_path (s : S) (l : list step) (t : S) : Prop :=
    match l with
    | [] => s = t
    | e :: l' => trans s (step_action e) (step_cost e) (step_state e) /\ is_path (step_state e) l' t
    end.

  Definition reachable (s t : S) : Prop := exists l, is_path s l t.

  (** The sum of the costs of the steps in path order, starting from [zero]. *)
  Definition path_cost (add : C -> C -> C) (zero : C) (l : list step) : C :=
    fold_left (fun g e => add g (step_cost e)) l zero.

  Definition path_states (s : S) (l : list step) : list S := s :: map step_state l.
  Definition path_actions (l : list step) : list A := map step_action l.

  (** The state equality decides equality. *)
  Definition decides_eq (eqs : S -> S -> bool) : Prop := forall s t, eqs s t = true <-> s = t.

  (** The propagator returns the same transitions whenever it is asked about the same state. *)
  Definition deterministic (nb : S -> list (S * A * C)) : Prop := forall p s, fst (succ p s) = nb s.

  (** ** Costs *)
  Definition leb (ltb : C -> C -> bool) (a b : C) : Prop := ltb b a = false.

  (** The comparison is a total preorder and addition is monotone in its first argument. Real,
      rational and integer addition satisfy this; so does rounded floating-point addition without
      NaN. *)
  Record cost_laws (ltb : C -> C -> bool) (add : C -> C -> C) : Prop := {
    c_irrefl : forall a, ltb a a = false;
    c_trans : forall a b c, ltb a b = true -> ltb b c = true -> ltb a c = true;
    c_incomp : forall a b c, ltb a b = false -> ltb b c = false -> ltb a c = false;
    c_mono : forall a b c, leb ltb a b -> leb ltb (add a c) (add b c)
  }.

  (** Consistency (a_star.h:312): moving along a transition does not lower the estimate of the total
      cost. *)
  Definition consistent (ltb : C -> C -> bool) (add : C -> C -> C) (h : S -> C) : Prop :=
    forall g s a c t, trans s a c t -> leb ltb (add g (h s)) (add (add g c) (h t)).

  (** The same for the transitions out of states reachable from [init] only. *)
  Definition consistent_from (ltb : C -> C -> bool) (add : C -> C -> C) (h : S -> C) (init : S) : Prop :=
    forall g s a c t, reachable init s -> trans s a c t -> leb ltb (add g (h s)) (add (add g c) (h t)).

  (** Comparing two costs does not change when the same heuristic value is added to both. *)
  Definition cancellable (ltb : C -> C -> bool) (add : C -> C -> C) (h : S -> C) : Prop :=
    forall g1 g2 s, leb ltb (add g1 (h s)) (add g2 (h s)) -> leb ltb g1 g2.

  (** Every state reachable from [init] is equal (in the sense of [eqs]) to a member of [K]. *)
  Definition finitely_reachable (eqs : S -> S -> bool) (init : S) (K : list S) : Prop :=
    forall t, reachable init t -> exists k, In k K /\ eqs t k = true.

  (** No two states of the list are equal. *)
  Definition pairwise_distinct (eqs : S -> S -> bool) (l : list S) : Prop :=
    ForallOrdPairs (fun a b => eqs a b = false) l.
End Paths.

Arguments trans {S A C P}.
Arguments step_action {S A C}.
Arguments step_cost {S A C}.
Arguments step_state {S A C}.
Arguments is_path {S A C P}.
Arguments reachable {S A C P}.
Arguments path_cost {S A C}.
Arguments path_states {S A C}.
Arguments path_actions {S A C}.
Arguments decides_eq {S}.
Arguments deterministic {S A C P}.
Arguments leb {C}.
Arguments cost_laws {C}.
Arguments consistent {S A C P}.
Arguments consistent_from {S A C P}.
Arguments cancellable {S C}.
Arguments pairwise_distinct {S}.
Arguments finitely_reachable {S A C P}.
