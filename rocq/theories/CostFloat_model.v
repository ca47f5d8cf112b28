(** The type of costs of the code: IEEE-754 double precision (/repo/planner/src/algo/a_star.h:151-152, 385-387), with addition rounded to
    nearest even and the comparison of the language. The numbers and their operations are those of Flocq, which uses one NaN instead of
    many. *)
From Coq Require Import ZArith.
From Flocq Require Import BinarySingleNaN.
From Verif Require Import Base Grid_model AStar_model AStarN2_model.
Local Open Scope Z_scope.

Definition double : Type := binary_float 53 1024.
Definition d_add (x y : double) : double := @Bplus 53 1024 (eq_refl _) (eq_refl _) mode_NE x y.
Definition d_ltb (x y : double) : bool := Bltb x y.
(** a_star.h:151-152: [0.0]. *)
Definition d_zero : double := B754_zero false.
(** The double nearest to [n * 2^e]. *)
Definition d_of (n e : Z) : double := @binary_normalize 53 1024 (eq_refl _) (eq_refl _) mode_NE n e false.

(** a_star.h:326-346 on doubles: graph search with the base class' functions. *)
Definition double_search {S A P} (eqs : S -> S -> bool) (h : S -> double) (succ : P -> S -> list (S * A * double) * P) (issol : S -> bool)
    (fuel : nat) (init : S) (p : P) :=
  search_path eqs d_ltb d_add d_zero h succ issol (fun _ _ => true) true fuel init p.
