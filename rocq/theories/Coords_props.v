(** C21 and C22: coordinate conversions. *)
From Coq Require Import Reals Lra.
From Verif Require Import Base RealBase Grid_model Grid_spec Coords_model Coords_proofs.
Local Open Scope R_scope.

(** C21, in exact arithmetic: a cell converts to a position and back to itself, in both frames and whatever calls
    set up the frames. For the code as run, with its roundings, see CoordsFloat_props.v. *)
Theorem C21_cell_round_trip_partial :
  forall resolution junk ops f c, fr_run (fr_new resolution junk) ops = Ok f -> resolution <> 0 ->
    is_int (row c) -> is_int (col c) ->
    local_to_cell f (cell_to_local f c) false = Ok c /\ world_to_cell f (cell_to_world f c) false = Ok c.
Proof.
  intros resolution junk ops f c H Hr H1 H2. apply run_res in H. cbn in H. rewrite <- H in Hr.
  split; [now apply local_round_trip|now apply world_round_trip].
Qed.
Print Assumptions C21_cell_round_trip_partial.

(** C21: local and world positions convert to each other. *)
Theorem C21_local_world_inverse :
  forall f p, local_to_world f (world_to_local f p) = p /\ world_to_local f (local_to_world f p) = p.
Proof. intros f p. split; [apply padd_psub|apply psub_padd]. Qed.
Print Assumptions C21_local_world_inverse.

(** C21: the conversions through the local and the world frame agree after the size is set... *)
Theorem C21_frames_agree_partial :
  forall f0 pre w h f, fr_run f0 (pre ++ [FInit w h]) = Ok f ->
    (forall p b, world_to_cell f p b = local_to_cell f (world_to_local f p) b) /\
    (forall c, cell_to_world f c = local_to_world f (cell_to_local f c)).
Proof. exact init_last_same_cell. Qed.
Print Assumptions C21_frames_agree_partial.

(** ... but no longer once the map is moved: SetPosition leaves the origin used for world conversions behind. *)
Theorem C21_frames_agree_refuted :
  exists ops f p, fr_run (fr_new 1 (0, 0)) ops = Ok f /\
    world_to_cell f p false = Ok (Cell 5 5) /\ local_to_cell f (world_to_local f p) false = Ok (Cell 2 5).
Proof.
  exists [FPos (0, 0); FInit 10 10; FPos (3, 0)], (fr_set_position map10 (3, 0)), (0, 0). split.
  - change [FPos (0, 0); FInit 10 10; FPos (3, 0)] with ([FPos (0, 0); FInit 10 10] ++ [FPos (3, 0)]). rewrite run_app, map10_run. reflexivity.
  - unfold world_to_cell, local_to_cell, world_to_local, grid_to_cell, psub. cbn [fst snd map10 fr_set_position fr_world_grid fr_local_grid fr_local fr_res].
    replace ((0 - -5) / 1) with 5 by field. replace ((0 - 3 - -5) / 1) with 2 by field. replace ((0 - 0 - -5) / 1) with 5 by field.
    rewrite !cast_IZR by (unfold is_int, int_min, int_max; lia). auto.
Qed.
Print Assumptions C21_frames_agree_refuted.

(** C21: the bounded conversion gives the cell if it is in the grid and (-1, -1) if it is not. *)
Theorem C21_bounded :
  forall f p c, world_to_cell f p false = Ok c ->
    (inside (fr_rows f) (fr_cols f) c -> world_to_cell f p true = Ok c) /\
    (~ inside (fr_rows f) (fr_cols f) c -> world_to_cell f p true = Ok (Cell (-1) (-1))).
Proof.
  intros f p c H. apply bounded_conv in H. unfold world_to_cell. rewrite H. pose proof (inside_cell_iff f c) as Hi.
  destruct (inside_cell f c); split; intros Hn; auto; [destruct Hn|apply Hi in Hn]; intuition congruence.
Qed.
Print Assumptions C21_bounded.

(** C22 does not hold: a position outside the rectangle of the grid is reported inside. *)
Theorem C22_inside_iff_in_rectangle_refuted :
  exists ops f p, fr_run (fr_new 1 (0, 0)) ops = Ok f /\ fst p < fst (fr_world_grid f) /\ inside_position f p = Ok true.
Proof.
  exists [FPos (0, 0); FInit 10 10], map10, (-5 - /2, 0). split; [apply map10_run|].
  cbn [fst fr_world_grid map10]. split; [lra|].
  destruct (inside_position_defined map10 (-5 - /2, 0)) as [b Hb]; cbn.
  - lra.
  - apply Rabs_le. lra.
  - apply Rabs_le. lra.
  - rewrite Hb. f_equal. eapply (inside_position_iff map10); [| | |exact Hb|]; cbn; try lia; lra.
Qed.
Print Assumptions C22_inside_iff_in_rectangle_refuted.

(** C22, exactly: positions reported inside are those of the rectangle enlarged by less than one cell to the left
    and below. In particular every position of the rectangle is reported inside. *)
Theorem C22_inside_iff_in_rectangle_partial :
  forall f p b, 0 < fr_res f -> (0 < fr_rows f)%Z -> (0 < fr_cols f)%Z -> inside_position f p = Ok b ->
  (b = true <->
   fst (fr_world_grid f) - fr_res f < fst p < fst (fr_world_grid f) + IZR (fr_rows f) * fr_res f /\
   snd (fr_world_grid f) - fr_res f < snd p < snd (fr_world_grid f) + IZR (fr_cols f) * fr_res f).
Proof.
  intros f p b Hr Hm Hn H. rewrite (inside_position_iff f p b Hr Hm Hn H). split; intros; lra.
Qed.
Print Assumptions C22_inside_iff_in_rectangle_partial.

(** The question has an answer for positions up to 2^31 - 1 cells away... *)
Theorem C22_inside_defined_partial :
  forall f p, 0 < fr_res f ->
  Rabs (fst p - fst (fr_world_grid f)) <= 2147483647 * fr_res f -> Rabs (snd p - snd (fr_world_grid f)) <= 2147483647 * fr_res f ->
  exists b, inside_position f p = Ok b.
Proof. exact inside_position_defined. Qed.
Print Assumptions C22_inside_defined_partial.

(** ... and the conversion overflows farther away. *)
Theorem C22_inside_defined_refuted : exists ops f p, fr_run (fr_new 1 (0, 0)) ops = Ok f /\ inside_position f p = UB.
Proof.
  exists [FPos (0, 0); FInit 10 10], map10, (3000000000, 0). split; [apply map10_run|].
  unfold inside_position, world_to_cell, grid_to_cell. cbn [fst snd map10 fr_world_grid fr_res].
  replace ((3000000000 - -5) / 1) with 3000000005 by field. unfold cast_int. rewrite Rtrunc_IZR. reflexivity.
Qed.
Print Assumptions C22_inside_defined_refuted.

(** The map of the examples comes from calls, and has a cell for each of its positions. *)
Example C21_map : fr_run (fr_new 1 (0, 0)) [FPos (0, 0); FInit 10 10] = Ok map10 /\ is_int 7 /\ (1 <> 0 :> R) /\
  exists b, inside_position map10 (3, 4) = Ok b.
Proof.
  split; [apply map10_run|]. split; [unfold is_int, int_min, int_max; lia|]. split; [lra|].
  apply inside_position_defined; cbn; [lra| |]; apply Rabs_le; lra.
Qed.
