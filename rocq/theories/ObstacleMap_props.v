(** C19 and C20: obstacle identifiers and occupancy. *)
From Verif Require Import Base Grid_model Grid_spec Raster_model Raster_spec Raster_proofs ObstacleMap_model ObstacleMap_spec ObstacleMap_proofs.
Open Scope Z_scope.

(** C19. After any history of calls on a new map: obstacles and identifiers are each listed once; the registered
    obstacles and their number are those of the history; adding a registered obstacle or removing an unregistered one returns
    false and changes nothing; another addition registers the obstacle with the smallest unused identifier, and
    another removal unregisters just that obstacle. *)
Theorem C19_obstacle_ids :
  forall ops st, om_run om_new ops = Ok st ->
  NoDup (map fst (om_obs st)) /\ NoDup (map snd (om_obs st)) /\
  (forall o, In o (map fst (om_obs st)) <-> In o (registered_after [] ops)) /\
  om_num st = Z.of_nat (length (registered_after [] ops)) /\
  (forall o cells st' b, om_add st o cells = Ok (st', b) ->
     (In o (registered_after [] ops) /\ b = false /\ st' = st) \/
     (~ In o (registered_after [] ops) /\ b = true /\
      exists i, smallest_unused (map snd (om_obs st)) i /\ om_obs st' = (o, i) :: om_obs st)) /\
  (forall o cells st' b, om_remove st o cells = Ok (st', b) ->
     (~ In o (registered_after [] ops) /\ b = false /\ st' = st) \/
     (In o (registered_after [] ops) /\ b = true /\
      forall o' i, In (o', i) (om_obs st') <-> In (o', i) (om_obs st) /\ o' <> o)).
Proof. exact ids_history. Qed.
Print Assumptions C19_obstacle_ids.

(** Identifier 0 is reused after a removal, then 3 is the next free one. *)
Example C19_example :
  exists st, om_run om_new [OInit 4 4; OAdd 10 [Cell 0 0]; OAdd 11 [Cell 1 1]; OAdd 12 []; ORemove 10 [Cell 0 0];
                            OAdd 13 [Cell 0 0]; OAdd 11 [Cell 2 2]; OAdd 14 [Cell 3 3]] = Ok st /\
    om_obs st = [(14%nat, 3); (13%nat, 0); (12%nat, 2); (11%nat, 1)].
Proof. eexists. split; vm_compute; reflexivity. Qed.

(** C20, exact effect of a history: when the cells given lie in the map (as C18 provides) no call fails, and a cell is
    occupied exactly when the last call that touched it was an addition. *)
Theorem C20_occupied_iff_last_marked :
  forall ops, well_used None ops -> exists st, om_run om_new ops = Ok st /\
    forall m n c, final_size None ops = Some (m, n) -> inside m n c ->
      om_occupied st c = Ok (match marked_by c [] None ops with Some _ => true | None => false end).
Proof. exact occupied_marked. Qed.
Print Assumptions C20_occupied_iff_last_marked.

(** C20 as stated does not hold, even if no obstacle moves: after two overlapping obstacles are added and one is removed, a
    cell of the other one is free. *)
Theorem C20_occupied_iff_covered_refuted :
  exists m n shape ops st c o,
    0 < m /\ 0 < n /\ static shape ops /\ (forall o, mentions ops o -> Forall (inside m n) (shape o)) /\
    om_run om_new (OInit m n :: ops) = Ok st /\ inside m n c /\
    In o (registered_after [] ops) /\ In c (shape o) /\ om_occupied st c = Ok false.
Proof.
  exists 5, 5, (fun o => if Nat.eqb o 0 then rasterize_line 5 5 (Cell 0 0) (Cell 4 4) else rasterize_line 5 5 (Cell 0 4) (Cell 4 0)).
  exists [OAdd 0 (rasterize_line 5 5 (Cell 0 0) (Cell 4 4)); OAdd 1 (rasterize_line 5 5 (Cell 0 4) (Cell 4 0));
          ORemove 1 (rasterize_line 5 5 (Cell 0 4) (Cell 4 0))].
  eexists. exists (Cell 2 2), 0%nat. split; [lia|]. split; [lia|].
  split; [repeat constructor|]. split.
  - intros o _. apply Forall_forall. intros c Hc. destruct (Nat.eqb o 0); apply filter_In in Hc as [_ Hc]; now apply in_range_inside.
  - split; [vm_compute; reflexivity|]. vm_compute. intuition congruence.
Qed.
Print Assumptions C20_occupied_iff_covered_refuted.

(** C20 fails the other way if the obstacle is moved between the calls: its old cells stay occupied for ever although no
    obstacle is registered. *)
Theorem C20_moved_obstacle_refuted :
  exists st c, om_run om_new [OInit 5 5; OAdd 0 [Cell 1 1]; ORemove 0 [Cell 3 3]] = Ok st /\
    om_num st = 0 /\ om_occupied st c = Ok true.
Proof. eexists. exists (Cell 1 1). vm_compute. auto. Qed.
Print Assumptions C20_moved_obstacle_refuted.

(** ... and if the size is set again: registered obstacles no longer occupy any cell and cannot be added again. *)
Theorem C20_resized_map_refuted :
  exists st, om_run om_new [OInit 5 5; OAdd 0 [Cell 1 1]; OInit 5 5; OAdd 0 [Cell 1 1]] = Ok st /\
    om_num st = 1 /\ forall c, inside 5 5 c -> om_occupied st c = Ok false.
Proof.
  destruct (occupied_marked [OInit 5 5; OAdd 0 [Cell 1 1]; OInit 5 5; OAdd 0 [Cell 1 1]]) as (st & E & O).
  { cbn. unfold inside. cbn. repeat split; try lia; repeat constructor; cbn; lia. }
  exists st. split; [exact E|]. split.
  - vm_compute in E. injection E as <-. reflexivity.
  - intros c Hc. rewrite (O 5 5 c eq_refl Hc). reflexivity.
Qed.
Print Assumptions C20_resized_map_refuted.

(** C20, what holds when the size is set once and no obstacle moves ([shape o] are the cells of [o]): an occupied cell
    is covered by a registered obstacle; and a cell covered by at most one of the obstacles ever used is occupied
    exactly when a registered obstacle covers it. *)
Theorem C20_occupied_iff_covered_partial :
  forall shape m n ops, 0 < m -> 0 < n -> static shape ops ->
  (forall o, mentions ops o -> Forall (inside m n) (shape o)) ->
  exists st, om_run om_new (OInit m n :: ops) = Ok st /\
    forall c, inside m n c ->
      (om_occupied st c = Ok true -> exists o, In o (registered_after [] ops) /\ In c (shape o)) /\
      ((forall o1 o2, mentions ops o1 -> mentions ops o2 -> In c (shape o1) -> In c (shape o2) -> o1 = o2) ->
       (om_occupied st c = Ok true <-> exists o, In o (registered_after [] ops) /\ In c (shape o))).
Proof. exact static_occupied. Qed.
Print Assumptions C20_occupied_iff_covered_partial.

(** C20, moreover the value stored in a cell is -1 or the identifier of a registered obstacle that covers it. *)
Theorem C20_value_is_an_id_partial :
  forall shape m n ops st c v, 0 < m -> 0 < n -> static shape ops ->
  (forall o, mentions ops o -> Forall (inside m n) (shape o)) ->
  om_run om_new (OInit m n :: ops) = Ok st -> inside m n c -> om_value st c = Ok v ->
  v = -1 \/ exists o, In (o, v) (om_obs st) /\ In c (shape o).
Proof. exact static_value. Qed.
Print Assumptions C20_value_is_an_id_partial.

Example C20_example : exists shape ops, static shape ops /\ (forall o, mentions ops o -> Forall (inside 6 6) (shape o)) /\
  registered_after [] ops = [1%nat] /\ length ops = 3%nat /\
  match om_run om_new (OInit 6 6 :: ops) with
  | Ok st => om_occupied st (Cell 0 3) = Ok true /\ om_occupied st (Cell 0 0) = Ok false /\ om_value st (Cell 0 3) = Ok 1
  | _ => False
  end.
Proof.
  exists (fun o => if Nat.eqb o 0 then rasterize_line 6 6 (Cell 0 0) (Cell 4 0) else rasterize_line 6 6 (Cell 0 3) (Cell 4 3)).
  exists [OAdd 0 (rasterize_line 6 6 (Cell 0 0) (Cell 4 0)); OAdd 1 (rasterize_line 6 6 (Cell 0 3) (Cell 4 3));
          ORemove 0 (rasterize_line 6 6 (Cell 0 0) (Cell 4 0))].
  split; [repeat constructor|]. split.
  - intros o _. apply Forall_forall. intros c Hc. destruct (Nat.eqb o 0); apply filter_In in Hc as [_ Hc]; now apply in_range_inside.
  - vm_compute. auto 10.
Qed.
