(** What the stored costs of the obstacle heuristic mean. *)
From Coq Require Import Reals ZArith.
From Flocq Require Import Core BinarySingleNaN.
From Verif Require Import Base Grid_model CoordsFloat_model ObstHeur_model ObstHeur_spec ObstHeurFloat_model.
Local Open Scope R_scope.

(** The number, if finite. *)
Definition s_value (x : single) : R := B2R x.
Definition s_finite (x : single) : Prop := is_finite x = true.
(** Half the distance between 1 and the next single: the largest relative error of an addition. *)
Definition s_unit : R := / 2 ^ 24.

(** A heuristic for a map of this size, after any history of updates. *)
Definition float_updated (rows columns : Z) : ostate single -> Prop := updated Bltb s_add s_zero s_one s_diag rows columns.
