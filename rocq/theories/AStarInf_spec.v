(** Specification vocabulary for searches in state spaces that may be infinite. *)
From Coq Require Import Reals.
From Verif Require Import Base AStar_spec.

Section Infinite.
  Context {S A C P : Type}.
  Variable succ : P -> S -> list (S * A * C) * P.

  (** Only finitely long paths from [init] stay below a given cost, the estimate of what remains included: for
      every cost [K] all paths of more than some number of steps cost more than [K]. *)
  Definition costs_grow (ltb : C -> C -> bool) (add : C -> C -> C) (zero : C) (h : S -> C) (init : S) : Prop :=
    forall K, exists D, forall l t, is_path succ init l t -> D < length l ->
      ltb K (add (path_cost add zero l) (h t)) = true.

  (** [f] is a path from [init] that goes on for ever and meets no state twice. *)
  Definition runaway (init : S) (f : nat -> S) : Prop :=
    f 0 = init /\ (forall i, exists a c, trans succ (f i) a c (f (Datatypes.S i))) /\
    forall i j, f i = f j -> i = j.
End Infinite.

(** Every step costs at least [e]. *)
Definition steps_cost_at_least {S A P} (succ : P -> S -> list (S * A * R) * P) (e : R) : Prop :=
  forall s a c t, trans succ s a c t -> (e <= c)%R.
