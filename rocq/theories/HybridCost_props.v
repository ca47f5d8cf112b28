(** C70, the prices of all transitions of Hybrid A*. *)
From Coq Require Import Reals Lra.
From Verif Require Import Base RealBase Grid_model Coords_model Pose_model Straight_model Bicycle_model Rs_model Rs_spec Validator_model Hybrid_model HybridCost_spec HybridCost_proofs
  HybridDemo_proofs.
Local Open Scope R_scope.

(** Full statement: the cost of a motion is its length, weighted by direction, plus the cost of changing direction, plus the path cost of the
    cells on the way. It is false, see C70_switching_refuted and C70_voronoi_refuted. What holds of every motion offered to the search: its cost
    is its price plus what [GetVoronoiCost] gives, and for a connection the price has the changes of direction. Missing, as in C40: a
    forward multiplier other than 1, together with a reverse multiplier 1 and a switching cost 0. *)
Theorem C70_transition_costs_partial :
  forall m f field vres validate heur Rng draw goal, 0 < hp_radius m -> hp_forward m = 1 \/ hp_reverse m <> 1 \/ hp_switching m <> 0 ->
  forall fuel g s l g', neighbors m f field vres validate heur Rng draw goal fuel g s = Ok (l, g') ->
  forall t p c, In (t, p, c) l ->
  exists k v, priced m p k /\ voronoi_cost m f field vres fuel p = Ok v /\ c = Some (k + v).
Proof. intros m f field vres validate heur Rng draw goal Hr Hc. exact (neighbors_cost m f field vres validate heur Rng draw goal Hr Hc). Qed.
Print Assumptions C70_transition_costs_partial.

(** The parameters of the search of C53_demo, and the default ones of the code (hybrid_a_star.h:30-38), meet the hypotheses. *)
Example C70_params : 0 < hp_radius demo_params /\ (hp_forward demo_params = 1 \/ hp_reverse demo_params <> 1 \/ hp_switching demo_params <> 0).
Proof. cbn. split; [lra|left; reflexivity]. Qed.
