(** Vocabulary for the bidirectional search. *)
From Verif Require Import Base AStar_spec.

(** Every transition of the forward propagator can be taken backwards by the reverse propagator. *)
Definition can_go_back {S A C Pf Pr} (succf : Pf -> S -> list (S * A * C) * Pf)
    (succr : Pr -> S -> list (S * A * C) * Pr) : Prop :=
  forall s a c t, trans succf s a c t -> exists a' c', trans succr t a' c' s.

(** ... and at the same cost. *)
Definition can_go_back_same_cost {S A C Pf Pr} (succf : Pf -> S -> list (S * A * C) * Pf)
    (succr : Pr -> S -> list (S * A * C) * Pr) : Prop :=
  forall s a c t, trans succf s a c t -> exists a', trans succr t a' c s.

(** The edges of the path [l] from [s], each with its source. *)
Fixpoint path_edges {S A C} (s : S) (l : list (step S A C)) : list (S * step S A C) :=
  match l with
  | [] => []
  | e :: l' => (s, e) :: path_edges (step_state e) l'
  end.

(** [h] is consistent (bidirectional_a_star.h:105). *)
From Coq Require Import Reals.
Definition consistent_R {S A P} (succ : P -> S -> list (S * A * R) * P) (h : S -> R) : Prop :=
  forall u a c v, trans succ u a c v -> (h u - h v <= c)%R.
