(** Vocabulary for costs whose addition is rounded, such as floating-point numbers. *)
From Coq Require Import Reals Lra.
From Verif Require Import Base AStar_spec.
Local Open Scope R_scope.

(** Costs have a value, may be infinite, compare as their values do, and every finite sum is the exact one up to a relative error of
    [u]. A sum of finite costs can be infinite only when it exceeds [big]. *)
Record rounded {C : Type} (ltb : C -> C -> bool) (add : C -> C -> C) (zero : C) (val : C -> R) (fin : C -> Prop) (u big : R) : Prop := {
  r_laws : cost_laws ltb add;
  r_unit : 0 <= u < 1;
  r_zero_fin : fin zero;
  r_zero : val zero = 0;
  r_pos : forall a, fin a -> 0 <= val a;
  r_le : forall a b, leb ltb a b -> fin b -> fin a /\ val a <= val b;
  r_fin : forall a b, fin (add a b) -> fin a /\ fin b;
  r_add : forall a b, fin a -> fin b -> val a + val b <= big -> fin (add a b);
  r_up : forall a b, fin (add a b) -> val (add a b) <= (1 + u) * (val a + val b);
  r_down : forall a b, fin (add a b) -> (1 - u) * (val a + val b) <= val (add a b)
}.

Section Paths.
  Context {S A C P : Type} (succ : P -> S -> list (S * A * C) * P) (val : C -> R) (fin : C -> Prop).

  (** The sum of the costs of the steps without rounding. *)
  Fixpoint exact_cost (l : list (step S A C)) : R :=
    match l with
    | [] => 0
    | e :: l' => val (step_cost e) + exact_cost l'
    end.

  Definition finite_steps (l : list (step S A C)) : Prop := Forall (fun e => fin (step_cost e)) l.

  (** The heuristic is consistent up to a relative error of [eta]: along every path out of a reachable state it overestimates what is left by
      no more than that. *)
  Definition estimate (h : S -> C) (eta : R) (init : S) : Prop := forall s l t, reachable succ init s -> is_path succ s l t -> finite_steps l ->
    val (h s) <= (1 + eta) * (exact_cost l + val (h t)).
End Paths.

(** What each step of a path can add to the relative error. *)
Definition growth (u eta : R) : R := (1 + u) * (1 + u) * (1 + eta) / (1 - u).
