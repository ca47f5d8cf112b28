(** Specification vocabulary for the smoother. *)
From Verif Require Import Base.
Local Open Scope Z_scope.

(** The samples the smoother may move on its own account: two samples away from both ends and from every cusp. *)
Definition optimized (num : Z) (cusp : Z -> bool) (k : Z) : Prop :=
  2 <= k <= num - 3 /\ forall j, k - 2 <= j <= k + 2 -> cusp j = false.
