(** Property C138, cheaper ways into cells that Hybrid A* has already seen. *)
From Coq Require Import Reals Lra Lia.
From Verif Require Import Base RealBase Pose_model Bicycle_model Frontier_model Frontier_proofs AStar_model AStar_spec AStar_proofs Hybrid_model Hybrid_proofs HybridShort_spec HybridShort_proofs.
Local Open Scope R_scope.

(** A state offered to the frontier enters it if its cell has not been seen. If the frontier has a pose in this cell, the state takes its place
    exactly if it has a lower estimate and nearly the same pose. Nothing else leaves or enters. *)
Theorem C138_replaced :
  forall hv (n : hnode) e fr cs a c, finv (n_cmp x_ltb (Some 0)) (n_eq hs_eqb) fr ->
  let cost := x_add (n_g (Some 0) n) c in let estimate := x_add cost (hv cs) in let child := Child cs a cost estimate n in
  exists fr', expand_one hs_eqb x_ltb x_add (Some 0) hv h_guard true n e fr (cs, a, c) = Ok fr' /\ finv (n_cmp x_ltb (Some 0)) (n_eq hs_eqb) fr' /\
  (forall y, In y (vec fr') -> In y (vec fr) \/ y = child) /\
  (forall y, In y (vec fr) -> In y (vec fr') \/ (hs_cell (n_state y) = hs_cell cs /\ nearly_same (hs_pose (n_state y)) (hs_pose cs) /\ x_ltb estimate (n_f (Some 0) y) = true)) /\
  (forall y, In y (vec fr) -> hs_cell (n_state y) = hs_cell cs -> nearly_same (hs_pose (n_state y)) (hs_pose cs) -> x_ltb estimate (n_f (Some 0) y) = true -> In child (vec fr') /\ ~ In y (vec fr')) /\
  ((forall y, In y (vec fr) \/ In y e -> hs_cell (n_state y) <> hs_cell cs) -> In child (vec fr')).
Proof. exact neighbour. Qed.
Print Assumptions C138_replaced.

(** A centimetre apart in one cell: the first pose, with the estimate five, stays, although the second one has the estimate three. *)
Definition first_pose (i : ipose) : hstate := HState Forward i (Pose 0 0 0).
Definition second_pose (i : ipose) : hstate := HState Forward i (Pose (1 / 100) 0 0).
Example C138_dropped : forall i a root, let fn : hnode := Child (first_pose i) a (Some 5) (Some 5) root in let fr := {| vec := [fn]; set := [fn] |} in
  finv (n_cmp x_ltb (Some 0)) (n_eq hs_eqb) fr /\
  exists fr', expand_one hs_eqb x_ltb x_add (Some 0) (fun _ => Some 0) h_guard true (Root (first_pose i)) [] fr (second_pose i, a, Some 3) = Ok fr' /\ In fn (vec fr').
Proof.
  intros i a root fn fr. assert (F : finv (n_cmp x_ltb (Some 0)) (n_eq hs_eqb) fr) by (split; [|split; [|apply Permutation.Permutation_refl]]; repeat constructor).
  split; [exact F|]. destruct (neighbour (fun _ => Some 0) (Root (first_pose i)) [] fr (second_pose i) a (Some 3) F) as (fr' & E & _ & _ & K & _). exists fr'. split; [exact E|].
  destruct (K fn (or_introl eq_refl)) as [I|(_ & [N _] & _)]; [exact I|exfalso]. cbn [n_state fn first_pose second_pose hs_pose px py] in N. replace ((0 - 1 / 100) * (0 - 1 / 100) + (0 - 0) * (0 - 0)) with ((1 / 100) * (1 / 100)) in N by field. rewrite sqrt_square in N by lra. lra.
Qed.

(** Full statement: the path found costs no more than any other in the map that the search explores. It is false, even if no estimates are used,
    all transitions depend on the cell alone, and the solution is a cell: a cheaper way into a cell of the frontier is dropped if it ends in
    another pose. With the shortcut of the base class the same search finds the cheapest path. *)
Theorem C138_cheapest_refuted :
  by_cells detour /\ (forall s t, same_pose s t = true <-> s = t) /\
  (exists l, is_path detour (0, 0)%nat l (3, 0)%nat /\ path_cost Z.add 0%Z l = 3%Z) /\
  (exists n st, search_path same_cell Z.ltb Z.add 0%Z (fun _ => 0%Z) detour (fun s => Nat.eqb (fst s) 3) same_pose true 100 (0, 0)%nat tt = Ok (Some n, st) /\ n_g 0%Z n = 11%Z) /\
  (exists n st, search_path same_cell Z.ltb Z.add 0%Z (fun _ => 0%Z) detour (fun s => Nat.eqb (fst s) 3) (fun _ _ => true) true 100 (0, 0)%nat tt = Ok (Some n, st) /\ n_g 0%Z n = 3%Z).
Proof.
  split; [intros [] [] [c q] [c' q'] E; cbn in E; subst; reflexivity|]. split.
  - intros [c q] [c' q']. unfold same_pose. cbn [fst snd]. rewrite Bool.andb_true_iff, !Nat.eqb_eq. split; [intros [-> ->]; reflexivity|intros E; injection E; auto].
  - split; [|split; eexists; eexists; (split; [vm_compute; reflexivity|reflexivity])].
    exists [(tt, 1%Z, (2, 0)%nat); (tt, 1%Z, (1, 1)%nat); (tt, 1%Z, (3, 0)%nat)]. split; [|reflexivity]. repeat split; exists tt; cbn; auto.
Qed.
Print Assumptions C138_cheapest_refuted.
