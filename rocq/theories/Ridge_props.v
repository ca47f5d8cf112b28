(** Property C125: the edges of the Voronoi diagram are the borders between the obstacles.

    As in Gvd_props.v, the theorems hold for every resolution of ties in the two queues, every size of map and every history of the
    operations of the maps; [number c] is the number of the obstacle whose cell is [c]. The zone of an obstacle are the cells for which
    the map reports a cell of this obstacle as the nearest one. *)
From Coq Require Import Reals Lra.
From Verif Require Import Base Grid_model Grid_spec Grid_proofs Gvd_model Gvd_spec Gvd_api_proofs Ridge_spec Ridge_proofs Gvd_props.
From Coq Require Import ZifyBool ZifyNat ZifyN.
Open Scope Z_scope.

(** Full statement: after the update, a cell is an edge if and only if it lies on the border between the zones of two different
    obstacles. Proved for all histories, with removals of obstacles too: no border is missed. Of two touching cells in different zones
    the one for which the distances to the two obstacles differ less is an edge. *)
Theorem C125_no_border_missed_partial :
  forall R C, representable R C -> forall top topv, priority top -> priority topv -> forall number,
  forall occ, sized R C occ -> forall ops, well_used R C false (ops ++ [GUpdateObstacles; GUpdateVoronoi]) ->
  numbered R C number false occ (fun _ => false) (ops ++ [GUpdateObstacles; GUpdateVoronoi]) ->
  reaches top topv occ (ops ++ [GUpdateObstacles; GUpdateVoronoi]) (fun st => exists w, g_vor st = Some w /\
    forall s n a b, inside R C s -> inside R C n -> touches s n -> inside R C a -> inside R C b ->
      nearest_obstacle (g_obs st) s = Ok a -> nearest_obstacle (g_obs st) n = Ok b ->
      number a <> number b -> far a b -> 1 < sqd s a \/ 1 < sqd n b ->
      sqd s b - sqd s a <= sqd n a - sqd n b -> nearest_obstacle w s = Ok s).
Proof.
  intros R C HRC top topv Ht Htv number occ Hz ops Hu Hn.
  destruct (ridge_api R C HRC top topv Ht Htv number occ ops Hz Hu Hn) as (k & st0 & st & E0 & E & w & Ew & A & _).
  exists k, st0, st. eauto.
Qed.
Print Assumptions C125_no_border_missed_partial.

(** Hence nobody gets from one obstacle to another without crossing an edge, if different obstacles are more than [sqrt 10] cells apart.
    Missing: histories that remove obstacles, after which the map reports obstacles that are gone (C25). *)
Theorem C125_edges_separate_partial :
  forall R C, representable R C -> forall top topv, priority top -> priority topv -> forall number,
  forall occ, sized R C occ -> forall ops, well_used R C false (ops ++ [GUpdateObstacles; GUpdateVoronoi]) ->
  numbered R C number false occ (fun _ => false) (ops ++ [GUpdateObstacles; GUpdateVoronoi]) ->
  existsb is_unset ops = false ->
  (forall a b, inside R C a -> inside R C b -> obstacle ops a -> obstacle ops b -> number a <> number b -> 10 < sqd a b) ->
  reaches top topv occ (ops ++ [GUpdateObstacles; GUpdateVoronoi]) (fun st => exists w, g_vor st = Some w /\
    forall p s e a b, walk R C s p e -> inside R C a -> inside R C b ->
      nearest_obstacle (g_obs st) s = Ok a -> nearest_obstacle (g_obs st) e = Ok b ->
      number a <> number b -> exists c, In c (s :: p) /\ nearest_obstacle w c = Ok c).
Proof. exact separates_api. Qed.
Print Assumptions C125_edges_separate_partial.

(** Proved for the histories without removals: every edge lies on a border between the reported obstacle and another one, to which its
    distances differ by at most the diagonal of a cell. Missing: that no third obstacle is nearer, which is false
    ([C125_history_refuted]), and histories with removals, for which even this is false ([C125_removal_refuted]). *)
Theorem C125_edges_between_obstacles_partial :
  forall R C, representable R C -> forall top topv, priority top -> priority topv -> forall number,
  forall occ, sized R C occ -> forall ops, well_used R C false (ops ++ [GUpdateObstacles; GUpdateVoronoi]) ->
  numbered R C number false occ (fun _ => false) (ops ++ [GUpdateObstacles; GUpdateVoronoi]) ->
  existsb is_unset ops = false ->
  reaches top topv occ (ops ++ [GUpdateObstacles; GUpdateVoronoi]) (fun st => exists w, g_vor st = Some w /\
    forall s, inside R C s -> nearest_obstacle w s = Ok s ->
      exists n a b, inside R C n /\ touches s n /\ inside R C a /\ inside R C b /\ nearest_obstacle (g_obs st) s = Ok a /\
        obstacle ops a /\ obstacle ops b /\ number a <> number b /\ border s n a b /\
        (cell_distance s a <= cell_distance s b <= cell_distance s a + sqrt 2)%R).
Proof.
  intros R C HRC top topv Ht Htv number occ Hz ops Hu Hn U.
  destruct (ridge_api R C HRC top topv Ht Htv number occ ops Hz Hu Hn) as (k & st0 & st & E0 & E & w & Ew & _ & A & _).
  exists k, st0, st. split; auto. split; auto. exists w. split; auto. intros s Hs Hw.
  destruct (A U s Hs Hw) as (n & a & b & A1 & A2 & A3 & A4 & A5 & A6 & A7 & A8 & A9). exists n, a, b.
  do 9 (split; [assumption|]). now apply (border_distance s n).
Qed.
Print Assumptions C125_edges_between_obstacles_partial.

(** ** Refutations *)

Definition number_of (occ : grid Z) (c : cell) : Z := match grid_get occ c with Ok z => z | _ => -1 end.
(** The occupancy matrix with the given numbers. *)
Definition drawn (R C : Z) (l : list (cell * Z)) : grid Z :=
  Grid R C (map (fun c => match find (fun e => cell_eqb (fst e) c) l with Some e => snd e | None => -1 end) (all_cells R C)).

Ltac used := cbn [well_used app]; unfold inside; cbn [row col]; repeat split; try lia; vm_compute; try reflexivity.

(** All obstacles are removed, and the edge between them stays. *)
Definition two_cells : grid Z := drawn 3 7 [(Cell 1 0, 0); (Cell 1 6, 1)].
Definition emptied : list gop :=
  [GVoronoi; GSet (Cell 1 0); GSet (Cell 1 6); GUpdateObstacles; GUpdateVoronoi; GUnset (Cell 1 0); GUnset (Cell 1 6); GOcc (drawn 3 7 [])].

Theorem C125_removal_refuted : exists R C occ number ops c fuel st0 st w,
  representable R C /\ priority oldest /\ sized R C occ /\ well_used R C false (ops ++ [GUpdateObstacles; GUpdateVoronoi]) /\
  numbered R C number false occ (fun _ => false) (ops ++ [GUpdateObstacles; GUpdateVoronoi]) /\
  g_new occ = Ok st0 /\ g_run oldest oldest fuel st0 (ops ++ [GUpdateObstacles; GUpdateVoronoi]) = Ok st /\ g_vor st = Some w /\
  (forall o, inside R C o -> ~ obstacle ops o) /\ inside R C c /\ nearest_obstacle w c = Ok c.
Proof.
  exists 3, 7, two_cells, (number_of two_cells), emptied, (Cell 1 3), 5000%nat. do 3 eexists.
  split; [unfold representable, inf; lia|]. split; [apply oldest_priority|]. split; [now vm_compute|]. split; [now used|].
  split; [apply numberedb_ok; vm_compute; reflexivity|].
  split; [vm_compute; reflexivity|]. split; [vm_compute; reflexivity|]. split; [reflexivity|].
  split; [|split; [unfold inside; cbn; lia|vm_compute; reflexivity]].
  intros o Ho K. pose proof (cells_ok 3 7 (fun o => negb (obstacle_after false emptied o)) ltac:(vm_compute; reflexivity) o Ho) as N.
  cbn beta in N. unfold obstacle in K. now rewrite K in N.
Qed.
Print Assumptions C125_removal_refuted.

(** A third obstacle moves the border, and an edge of the old border stays: two histories that set the same obstacles, and after which
    the map reports the same obstacle for every cell, give different edges. *)
Definition three_cells : grid Z := drawn 6 12 [(Cell 1 3, 0); (Cell 0 9, 1); (Cell 5 2, 2)].
Definition one_by_one : list gop := [GVoronoi; GSet (Cell 1 3); GSet (Cell 0 9); GUpdateObstacles; GUpdateVoronoi; GSet (Cell 5 2)].
Definition at_once : list gop := [GVoronoi; GSet (Cell 1 3); GSet (Cell 0 9); GSet (Cell 5 2)].

Definition same_cell (x y : res cell) : bool := match x, y with Ok a, Ok b => cell_eqb a b | _, _ => false end.
Lemma same_cell_eq x y : same_cell x y = true -> x = y.
Proof. destruct x, y; cbn; try discriminate. intros H. apply cell_eqb_eq in H. now subst. Qed.

Theorem C125_history_refuted : exists R C occ number ops ops' c fuel st0 st st' w w',
  representable R C /\ priority oldest /\ sized R C occ /\
  well_used R C false (ops ++ [GUpdateObstacles; GUpdateVoronoi]) /\ well_used R C false (ops' ++ [GUpdateObstacles; GUpdateVoronoi]) /\
  numbered R C number false occ (fun _ => false) (ops ++ [GUpdateObstacles; GUpdateVoronoi]) /\
  numbered R C number false occ (fun _ => false) (ops' ++ [GUpdateObstacles; GUpdateVoronoi]) /\
  existsb is_unset ops = false /\ existsb is_unset ops' = false /\
  g_new occ = Ok st0 /\ g_run oldest oldest fuel st0 (ops ++ [GUpdateObstacles; GUpdateVoronoi]) = Ok st /\
  g_run oldest oldest fuel st0 (ops' ++ [GUpdateObstacles; GUpdateVoronoi]) = Ok st' /\
  g_vor st = Some w /\ g_vor st' = Some w' /\
  (forall o, inside R C o -> (obstacle ops o <-> obstacle ops' o)) /\
  (forall o, inside R C o -> nearest_obstacle (g_obs st) o = nearest_obstacle (g_obs st') o) /\
  inside R C c /\ nearest_obstacle w c = Ok c /\ nearest_obstacle w' c <> Ok c.
Proof.
  exists 6, 12, three_cells, (number_of three_cells), one_by_one, at_once, (Cell 3 7), 5000%nat. do 5 eexists.
  split; [unfold representable, inf; lia|]. split; [apply oldest_priority|]. split; [now vm_compute|].
  split; [now used|]. split; [now used|].
  split; [apply numberedb_ok; vm_compute; reflexivity|]. split; [apply numberedb_ok; vm_compute; reflexivity|].
  split; [reflexivity|]. split; [reflexivity|].
  split; [vm_compute; reflexivity|]. split; [vm_compute; reflexivity|]. split; [vm_compute; reflexivity|].
  split; [reflexivity|]. split; [reflexivity|].
  split.
  { intros o Ho. pose proof (cells_ok 6 12 (fun o => Bool.eqb (obstacle_after false one_by_one o) (obstacle_after false at_once o)) ltac:(vm_compute; reflexivity) o Ho) as N.
    cbn beta in N. apply Bool.eqb_prop in N. unfold obstacle. now rewrite N. }
  split.
  { intros o Ho. apply same_cell_eq. revert o Ho. apply cells_ok. vm_compute. reflexivity. }
  split; [unfold inside; cbn; lia|]. split; [vm_compute; reflexivity|]. vm_compute. discriminate.
Qed.
Print Assumptions C125_history_refuted.

(** The diagram is created after the map was updated: the border between the two obstacles is missed. *)
Definition late : list gop := [GSet (Cell 1 0); GSet (Cell 1 6); GUpdateObstacles; GVoronoi].

Theorem C125_late_diagram_refuted : exists R C occ number ops s n a b fuel st0 st w,
  representable R C /\ priority oldest /\ sized R C occ /\ well_used R C false (ops ++ [GUpdateObstacles; GUpdateVoronoi]) /\
  existsb is_unset ops = false /\ (forall c, inside R C c -> obstacle ops c -> grid_get occ c = Ok (number c)) /\
  g_new occ = Ok st0 /\ g_run oldest oldest fuel st0 (ops ++ [GUpdateObstacles; GUpdateVoronoi]) = Ok st /\ g_vor st = Some w /\
  inside R C s /\ inside R C n /\ touches s n /\ inside R C a /\ inside R C b /\ obstacle ops a /\ obstacle ops b /\
  nearest_obstacle (g_obs st) s = Ok a /\ nearest_obstacle (g_obs st) n = Ok b /\ number a <> number b /\ border s n a b /\
  forall c, inside R C c -> nearest_obstacle w c = Ok no_cell.
Proof.
  exists 3, 7, two_cells, (number_of two_cells), late, (Cell 1 3), (Cell 1 4), (Cell 1 0), (Cell 1 6), 5000%nat. do 3 eexists.
  split; [unfold representable, inf; lia|]. split; [apply oldest_priority|]. split; [now vm_compute|]. split; [now used|].
  split; [reflexivity|].
  split.
  { intros o Ho _. apply reads_iff. revert o Ho. apply cells_ok. vm_compute. reflexivity. }
  split; [vm_compute; reflexivity|]. split; [vm_compute; reflexivity|]. split; [reflexivity|].
  do 2 (split; [unfold inside; cbn; lia|]). split; [unfold touches; cbn; lia|]. do 2 (split; [unfold inside; cbn; lia|]).
  do 4 (split; [vm_compute; reflexivity|]). split; [vm_compute; discriminate|]. split; [unfold border, far, sqd; cbn; lia|].
  intros c Hc. apply same_cell_eq. revert c Hc. apply cells_ok. vm_compute. reflexivity.
Qed.
Print Assumptions C125_late_diagram_refuted.

(** ** The hypotheses are met *)
Definition apart_cells : list gop := [GVoronoi; GSet (Cell 1 0); GSet (Cell 1 6)].
Example C125_used : representable 3 7 /\ sized 3 7 two_cells /\ well_used 3 7 false (apart_cells ++ [GUpdateObstacles; GUpdateVoronoi]) /\
  numbered 3 7 (number_of two_cells) false two_cells (fun _ => false) (apart_cells ++ [GUpdateObstacles; GUpdateVoronoi]) /\
  existsb is_unset apart_cells = false /\
  (forall a b, inside 3 7 a -> inside 3 7 b -> obstacle apart_cells a -> obstacle apart_cells b -> number_of two_cells a <> number_of two_cells b -> 10 < sqd a b).
Proof.
  split; [unfold representable, inf; lia|]. split; [now vm_compute|]. split; [now used|].
  split; [apply numberedb_ok; vm_compute; reflexivity|]. split; [reflexivity|]. intros a b Ha Hb Oa Ob Hn.
  pose proof (cells_ok 3 7 (fun a => implb (obstacle_after false apart_cells a) (orb (cell_eqb a (Cell 1 0)) (cell_eqb a (Cell 1 6)))) ltac:(vm_compute; reflexivity)) as N.
  pose proof (N a Ha) as Na. pose proof (N b Hb) as Nb. cbn beta in Na, Nb. unfold obstacle in Oa, Ob. rewrite Oa in Na. rewrite Ob in Nb. cbn [implb] in Na, Nb.
  apply orb_prop in Na. apply orb_prop in Nb.
  destruct Na as [Na|Na], Nb as [Nb|Nb]; apply cell_eqb_eq in Na; apply cell_eqb_eq in Nb; subst; try (exfalso; apply Hn; reflexivity); vm_compute; reflexivity.
Qed.

(** The edges are the middle column. *)
Example C125_edges : match (do st0 <- g_new two_cells; g_run oldest oldest 5000 st0 (apart_cells ++ [GUpdateObstacles; GUpdateVoronoi])) with
  | Ok st => match g_vor st with
             | Some w => forall c, inside 3 7 c -> same_cell (nearest_obstacle w c) (Ok c) = (col c =? 3)
             | None => False
             end
  | _ => False
  end.
Proof.
  vm_compute (do st0 <- _; _). cbn [g_vor]. intros c Hc. apply Bool.eqb_prop. revert c Hc. apply (cells_ok 3 7 (fun c => Bool.eqb (same_cell _ (Ok c)) (col c =? 3))). vm_compute. reflexivity.
Qed.
