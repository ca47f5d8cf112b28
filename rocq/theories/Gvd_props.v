(** Properties C23 to C26 of the distance maps and C27 of the path cost.

    The theorems hold for every resolution of ties in the two queues ([top] for the obstacle map and [topv] for the
    Voronoi map), every size of map whose squared distances are representable, and every history of the operations
    of the maps. [reaches] says that the history runs to its end without undefined behaviour and terminates. *)
From Coq Require Import Reals Lra.
From Verif Require Import Base RealBase Grid_model Grid_spec Grid_proofs Gvd_model Gvd_spec PathCost_model Gvd_api_proofs.
From Coq Require Import ZifyBool ZifyNat ZifyN.
Open Scope Z_scope.

(** C23. *)
Theorem C23_bookkeeping_consistent :
  forall R C, representable R C -> forall top topv, priority top -> priority topv ->
  forall occ, sized R C occ -> forall ops, well_used R C false ops ->
  reaches top topv occ ops (fun st =>
    (forall c, inside R C c -> consistent R C (g_obs st) c) /\
    (forall w c, g_vor st = Some w -> inside R C c -> consistent R C w c) /\
    (forall c, inside R C c -> (nearest_obstacle (g_obs st) c = Ok c <-> obstacle ops c)) /\
    (forall c, inside R C c -> obstacle ops c -> squared_distance_to_obstacle (g_obs st) c = Ok 0)).
Proof. exact api_consistent. Qed.
Print Assumptions C23_bookkeeping_consistent.

(** C24. *)
Theorem C24_update_terminates :
  forall R C, representable R C -> forall top topv, priority top -> priority topv ->
  forall occ, sized R C occ -> forall ops, well_used R C false ops ->
  reaches top topv occ (ops ++ [GUpdateObstacles]) (fun st => settled (g_obs st)).
Proof. exact api_settled. Qed.
Print Assumptions C24_update_terminates.

Theorem C24_voronoi_update_terminates :
  forall R C, representable R C -> forall top topv, priority top -> priority topv ->
  forall occ, sized R C occ -> forall ops, well_used R C false (ops ++ [GUpdateVoronoi]) ->
  reaches top topv occ (ops ++ [GUpdateVoronoi]) (fun st => exists w, g_vor st = Some w /\ settled w).
Proof. exact api_settled_voronoi. Qed.
Print Assumptions C24_voronoi_update_terminates.

(** C25. Full statement: after [Update], a cell that reports an obstacle reports an existing one. Missing: histories that
    remove obstacles, for which the statement is false (see [C25_removed_obstacle_refuted]). *)
Theorem C25_reported_obstacles_partial :
  forall R C, representable R C -> forall top topv, priority top -> priority topv ->
  forall occ, sized R C occ -> forall ops, well_used R C false (ops ++ [GUpdateObstacles]) ->
  reaches top topv occ (ops ++ [GUpdateObstacles]) (fun st =>
    ((exists o, inside R C o /\ obstacle ops o) -> forall c, inside R C c -> exists o, nearest_obstacle (g_obs st) c = Ok o /\ inside R C o) /\
    ((forall o, inside R C o -> ~ obstacle ops o) -> forall c, inside R C c ->
       nearest_obstacle (g_obs st) c = Ok no_cell /\ squared_distance_to_obstacle (g_obs st) c = Ok inf) /\
    (existsb is_unset ops = false -> forall c o d, inside R C c -> inside R C o -> nearest_obstacle (g_obs st) c = Ok o ->
       squared_distance_to_obstacle (g_obs st) c = Ok d ->
       obstacle ops o /\ exists d0, smallest R C (obstacle ops) c d0 /\ d0 <= d)).
Proof. exact api_reports. Qed.
Print Assumptions C25_reported_obstacles_partial.

(** C26. Full statement: after [Update], the reported distance is the distance to the nearest obstacle. It is false
    ([C26_exact_distance_refuted]). Without removals it holds with at most two obstacles, ... *)
Theorem C26_two_obstacles_exact_partial :
  forall R C, representable R C -> forall top topv, priority top -> priority topv ->
  forall occ, sized R C occ -> forall ops a b, well_used R C false (ops ++ [GUpdateObstacles]) -> existsb is_unset ops = false ->
  inside R C a -> inside R C b -> obstacle ops a -> obstacle ops b ->
  (forall o, inside R C o -> obstacle ops o -> o = a \/ o = b) ->
  reaches top topv occ (ops ++ [GUpdateObstacles]) (fun st => forall c, inside R C c ->
    exists d, squared_distance_to_obstacle (g_obs st) c = Ok d /\ smallest R C (obstacle ops) c d).
Proof. exact api_two. Qed.
Print Assumptions C26_two_obstacles_exact_partial.

(** ... and with any number of obstacles for the cells that are reached from their nearest obstacle through cells that
    have no other nearest obstacle. *)
Theorem C26_region_exact_partial :
  forall R C, representable R C -> forall top topv, priority top -> priority topv ->
  forall occ, sized R C occ -> forall ops, well_used R C false (ops ++ [GUpdateObstacles]) -> existsb is_unset ops = false ->
  reaches top topv occ (ops ++ [GUpdateObstacles]) (fun st => forall o c, inside R C o -> obstacle ops o -> inside R C c ->
    (forall o', inside R C o' -> obstacle ops o' -> sqd c o <= sqd c o') ->
    region R C (fun o' => inside R C o' /\ obstacle ops o') o c ->
    squared_distance_to_obstacle (g_obs st) c = Ok (sqd c o)).
Proof. exact api_region. Qed.
Print Assumptions C26_region_exact_partial.

(** After every history, the square of the reported distance exceeds that of the true one by at most the factor
    4 - 2 sqrt 2 (the distances by 8.3 percent), and by nothing from an obstacle in the same row, column or diagonal. *)
Theorem C26_error_bound_partial :
  forall R C, representable R C -> forall top topv, priority top -> priority topv ->
  forall occ, sized R C occ -> forall ops, well_used R C false (ops ++ [GUpdateObstacles]) ->
  reaches top topv occ (ops ++ [GUpdateObstacles]) (fun st => forall o c d, inside R C o -> obstacle ops o -> inside R C c ->
    squared_distance_to_obstacle (g_obs st) c = Ok d ->
    (IZR d <= (4 - 2 * sqrt 2) * IZR (sqd c o))%R /\
    (row o = row c \/ col o = col c \/ Z.abs (row o - row c) = Z.abs (col o - col c) -> d <= sqd c o)).
Proof. exact api_error. Qed.
Print Assumptions C26_error_bound_partial.

(** C27, for maps whose edges are set by the updates only. *)
Theorem C27_path_cost_range :
  forall R C, representable R C -> forall top topv, priority top -> priority topv ->
  forall occ, sized R C occ -> forall ops (alpha dMax resolution : Rdefinitions.R),
  (0 < alpha)%R -> (0 < dMax)%R -> (0 < resolution)%R ->
  well_used R C false (ops ++ [GUpdateObstacles; GUpdateVoronoi]) -> existsb is_edge ops = false ->
  reaches top topv occ (ops ++ [GUpdateObstacles; GUpdateVoronoi]) (fun st => forall c, inside R C c ->
    exists x, get_path_cost alpha dMax resolution st c = Ok (Some x) /\ (0 <= x <= 1)%R /\
      (forall d, squared_distance_to_obstacle (g_obs st) c = Ok d -> (dMax <= reported_distance resolution d)%R -> x = 0%R) /\
      (forall w, g_vor st = Some w -> nearest_obstacle w c = Ok c -> x = 0%R) /\
      (obstacle ops c -> x = 1%R)).
Proof. exact api_costs. Qed.
Print Assumptions C27_path_cost_range.

(** A queue that returns the oldest of the smallest entries. *)
Fixpoint first_min (q : list (cell * Z)) : nat :=
  match q with
  | [] => O
  | e :: r => let k := first_min r in
              match nth_error r k with
              | Some e' => if snd e <=? snd e' then O else S k
              | None => O
              end
  end.
Definition oldest (_ : nat) (q : list (cell * Z)) : nat := first_min q.

Lemma oldest_priority : priority oldest.
Proof.
  intros k q Hq. unfold oldest. clear k. induction q as [|e r IH]; [contradiction|]. cbn [first_min].
  destruct r as [|e1 r'].
  - exists e. cbn. split; auto. intros e' [<-|[]]. lia.
  - destruct IH as (e2 & E2 & Hm); [discriminate|]. rewrite E2. destruct (snd e <=? snd e2) eqn:L.
    + exists e. split; auto. intros e' [<-|I]; [lia|]. specialize (Hm e' I). lia.
    + exists e2. split; auto. intros e' [<-|I]; [lia|]. now apply Hm.
Qed.

Definition empty_occ (R C : Z) : grid Z := Grid R C (repeat (-1) (Z.to_nat (R * C))).
Definition report (R C : Z) (ops : list gop) (c : cell) : res (cell * Z) :=
  do st0 <- g_new (empty_occ R C);
  do st <- g_run oldest oldest 5000 st0 ops;
  do o <- nearest_obstacle (g_obs st) c;
  do d <- squared_distance_to_obstacle (g_obs st) c;
  Ok (o, d).

(** An obstacle that was removed before the last [Update] is still reported. *)
Definition removal : list gop :=
  [GSet (Cell 2 1); GUpdateObstacles; GSet (Cell 0 2); GSet (Cell 6 0); GUpdateObstacles; GUnset (Cell 2 1); GUpdateObstacles].
Theorem C25_removed_obstacle_refuted :
  exists R C occ ops c o fuel st0 st, representable R C /\ sized R C occ /\ well_used R C false (ops ++ [GUpdateObstacles]) /\
    g_new occ = Ok st0 /\ g_run oldest oldest fuel st0 (ops ++ [GUpdateObstacles]) = Ok st /\ settled (g_obs st) /\
    inside R C c /\ inside R C o /\ nearest_obstacle (g_obs st) c = Ok o /\ ~ obstacle ops o /\
    exists d, squared_distance_to_obstacle (g_obs st) c = Ok d /\ forall o', inside R C o' -> obstacle ops o' -> d < sqd c o'.
Proof.
  exists 8, 14, (empty_occ 8 14), (removelast removal), (Cell 7 13), (Cell 2 1), 5000%nat.
  destruct (g_new (empty_occ 8 14)) as [st0| | |] eqn:E0; try (vm_compute in E0; discriminate E0). exists st0.
  destruct (g_run oldest oldest 5000 st0 (removelast removal ++ [GUpdateObstacles])) as [st| | |] eqn:E;
    try (vm_compute in E0; injection E0 as <-; vm_compute in E; discriminate E).
  exists st. assert (K : report 8 14 removal (Cell 7 13) = Ok (Cell 2 1, 169)) by (vm_compute; reflexivity).
  unfold report in K. rewrite E0 in K. cbn [bind] in K. change removal with (removelast removal ++ [GUpdateObstacles]) in K. rewrite E in K. cbn [bind] in K.
  assert (S : settled (g_obs st)).
  { vm_compute in E0. injection E0 as <-. vm_compute in E. injection E as <-. reflexivity. }
  destruct (nearest_obstacle (g_obs st) (Cell 7 13)) as [o| | |] eqn:En; try discriminate K. cbn [bind] in K.
  destruct (squared_distance_to_obstacle (g_obs st) (Cell 7 13)) as [d| | |] eqn:Ed; try discriminate K. cbn [bind] in K.
  assert (o = Cell 2 1 /\ d = 169) as [-> ->] by (split; congruence).
  split; [unfold representable, inf; lia|]. split; [now vm_compute|]. split; [cbn; unfold inside; cbn; lia|].
  split; [reflexivity|]. split; [reflexivity|]. split; [exact S|]. split; [unfold inside; cbn; lia|]. split; [unfold inside; cbn; lia|].
  split; [reflexivity|]. split; [discriminate|]. exists 169. split; [reflexivity|].
  intros [r k] Hi Ho. unfold obstacle in Ho. cbn in Ho.
  destruct (cell_eqb (Cell 2 1) (Cell r k)) eqn:A1, (cell_eqb (Cell 0 2) (Cell r k)) eqn:A2, (cell_eqb (Cell 6 0) (Cell r k)) eqn:A3;
    try discriminate Ho; try (apply cell_eqb_eq in A1; discriminate); repeat match goal with H : cell_eqb _ _ = true |- _ => apply cell_eqb_eq in H end;
    try congruence; match goal with H : Cell _ _ = Cell _ _ |- _ => injection H as <- <- end; vm_compute; reflexivity.
Qed.
Print Assumptions C25_removed_obstacle_refuted.

(** Three obstacles, none removed: the nearest obstacle of (7,13) is (2,1) at squared distance 169, but 170 is reported. *)
Definition three : list gop := [GSet (Cell 2 1); GSet (Cell 0 2); GSet (Cell 6 0)].
Theorem C26_exact_distance_refuted :
  exists R C occ ops c o d fuel st0 st, representable R C /\ sized R C occ /\ well_used R C false (ops ++ [GUpdateObstacles]) /\
    existsb is_unset ops = false /\
    g_new occ = Ok st0 /\ g_run oldest oldest fuel st0 (ops ++ [GUpdateObstacles]) = Ok st /\ settled (g_obs st) /\
    inside R C c /\ inside R C o /\ obstacle ops o /\ squared_distance_to_obstacle (g_obs st) c = Ok d /\ sqd c o < d.
Proof.
  exists 8, 14, (empty_occ 8 14), three, (Cell 7 13), (Cell 2 1), 170, 5000%nat.
  destruct (g_new (empty_occ 8 14)) as [st0| | |] eqn:E0; try (vm_compute in E0; discriminate E0). exists st0.
  destruct (g_run oldest oldest 5000 st0 (three ++ [GUpdateObstacles])) as [st| | |] eqn:E;
    try (vm_compute in E0; injection E0 as <-; vm_compute in E; discriminate E).
  exists st. split; [unfold representable, inf; lia|]. split; [now vm_compute|]. split; [cbn; unfold inside; cbn; lia|].
  split; [reflexivity|]. split; [reflexivity|]. split; [reflexivity|].
  vm_compute in E0. injection E0 as <-. vm_compute in E. injection E as <-.
  split; [reflexivity|]. split; [unfold inside; cbn; lia|]. split; [unfold inside; cbn; lia|]. split; [reflexivity|].
  split; vm_compute; reflexivity.
Qed.
Print Assumptions C26_exact_distance_refuted.

(** Without the restriction on the edges the cost may be undefined: an obstacle that is also made an edge. *)
Theorem C27_foreign_edge_refuted :
  exists R C occ ops c fuel st0 st, representable R C /\ sized R C occ /\ well_used R C false (ops ++ [GUpdateObstacles; GUpdateVoronoi]) /\
    g_new occ = Ok st0 /\ g_run oldest oldest fuel st0 (ops ++ [GUpdateObstacles; GUpdateVoronoi]) = Ok st /\ inside R C c /\
    get_path_cost 20 30 1 st c = Ok None.
Proof.
  exists 2, 2, (empty_occ 2 2), [GSet (Cell 0 0); GUpdateObstacles; GVoronoi; GSetEdge (Cell 0 0)], (Cell 0 0), 100%nat.
  do 2 eexists. split; [unfold representable, inf; lia|]. split; [now vm_compute|]. split; [cbn; unfold inside; cbn; lia|].
  split; [reflexivity|]. split; [vm_compute; reflexivity|]. split; [unfold inside; cbn; lia|].
  unfold get_path_cost, reported_distance, path_cost. cbn. rewrite sqrt_0.
  destruct (Rleb_spec 30 (0 * 1)) as [L|L]; [exfalso; lra|]. destruct (Reqb_spec (0 * 1 + 0 * 1) 0) as [E|E]; [reflexivity|exfalso; lra].
Qed.
Print Assumptions C27_foreign_edge_refuted.

(** The hypotheses can be met: two obstacles, then the first one removed; what a cell reports. *)
Example C23_example : representable 8 14 /\ priority oldest /\ sized 8 14 (empty_occ 8 14) /\ well_used 8 14 false removal /\
  (exists c, inside 8 14 c /\ obstacle removal c).
Proof.
  split; [unfold representable, inf; lia|]. split; [apply oldest_priority|]. split; [now vm_compute|]. split; [cbn; unfold inside; cbn; lia|].
  exists (Cell 0 2). split; [unfold inside; cbn; lia|reflexivity].
Qed.
Example C26_example : report 8 14 [GSet (Cell 2 1); GSet (Cell 6 0); GUpdateObstacles] (Cell 7 13) = Ok (Cell 2 1, 169).
Proof. vm_compute. reflexivity. Qed.
Example C25_example : report 8 14 [GSet (Cell 2 1); GSet (Cell 6 0); GUpdateObstacles; GUnset (Cell 2 1); GUpdateObstacles] (Cell 7 13) = Ok (Cell 6 0, 170).
Proof. vm_compute. reflexivity. Qed.

(** A diagram with edges: two obstacles of different objects. *)
Definition two_objects : grid Z := Grid 3 7 ([0; -1; -1; -1; -1; -1; 1] ++ [0; -1; -1; -1; -1; -1; 1] ++ [0; -1; -1; -1; -1; -1; 1]).
Example C27_example : exists st0 st w,
  g_new two_objects = Ok st0 /\
  g_run oldest oldest 5000 st0 ([GVoronoi; GSet (Cell 1 0); GSet (Cell 1 6)] ++ [GUpdateObstacles; GUpdateVoronoi]) = Ok st /\
  g_vor st = Some w /\ nearest_obstacle w (Cell 1 3) = Ok (Cell 1 3) /\ nearest_obstacle w (Cell 1 0) = Ok (Cell 1 3).
Proof. do 3 eexists. repeat (split; [vm_compute; reflexivity|]). vm_compute. reflexivity. Qed.
