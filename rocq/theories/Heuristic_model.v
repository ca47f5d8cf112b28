(** Model of [AStarCombinedHeuristic], /repo/planner/src/algo/a_star.h:85-120, over the reals. *)
From Coq Require Import Reals List.
From Verif Require Export RealBase.
Import ListNotations.
Local Open Scope R_scope.

(** An extended value: [None] is minus infinity (a_star.h:104). *)
Definition xmax (a : option R) (b : R) : option R :=
  match a with
  | None => Some b
  | Some x => Some (if Rlt_dec x b then b else x)   (* std::max(x, b) *)
  end.

(** a_star.h:102-109, [GetHeuristicValue]: fold of [std::max] over the parts in order. *)
Definition combined {S : Type} (hs : list (S -> R)) (s : S) : option R :=
  fold_left (fun v hp => xmax v (hp s)) hs None.
