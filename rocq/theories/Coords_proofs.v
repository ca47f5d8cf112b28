From Coq Require Import Reals Lra.
From Verif Require Import Base RealBase Grid_model Grid_spec Grid_proofs Coords_model.
From Coq Require Import ZifyBool.
Local Open Scope R_scope.

Lemma inside_cell_iff f c : inside_cell f c = true <-> inside (fr_rows f) (fr_cols f) c.
Proof. unfold inside_cell, inside. lia. Qed.

Lemma cast_IZR n : is_int n -> cast_int (IZR n) = Ok n.
Proof. intros H. apply cast_int_ok. rewrite Rtrunc_IZR. auto. Qed.

Lemma grid_to_cell_back f c : fr_res f <> 0 -> is_int (row c) -> is_int (col c) ->
  grid_to_cell f (cell_to_grid f c) false = Ok c.
Proof.
  intros Hr H1 H2. unfold grid_to_cell, cell_to_grid. cbn [fst snd].
  replace (IZR (row c) * fr_res f / fr_res f) with (IZR (row c)) by (field; auto).
  replace (IZR (col c) * fr_res f / fr_res f) with (IZR (col c)) by (field; auto).
  rewrite !cast_IZR by auto. cbn. now destruct c.
Qed.

Lemma psub_padd a b : psub (padd a b) a = b.
Proof. destruct a, b. unfold psub, padd. cbn. f_equal; ring. Qed.
Lemma padd_psub a b : padd a (psub b a) = b.
Proof. destruct a, b. unfold psub, padd. cbn. f_equal; ring. Qed.

Lemma local_round_trip f c : fr_res f <> 0 -> is_int (row c) -> is_int (col c) ->
  local_to_cell f (cell_to_local f c) false = Ok c.
Proof. intros. unfold local_to_cell, cell_to_local. rewrite psub_padd. now apply grid_to_cell_back. Qed.
Lemma world_round_trip f c : fr_res f <> 0 -> is_int (row c) -> is_int (col c) ->
  world_to_cell f (cell_to_world f c) false = Ok c.
Proof.
  intros. unfold world_to_cell, cell_to_world. change (grid_to_cell f (psub (padd (fr_world_grid f) (cell_to_grid f c)) (fr_world_grid f)) false = Ok c).
  rewrite psub_padd. now apply grid_to_cell_back.
Qed.

Lemma bounded_conv f p c : grid_to_cell f p false = Ok c ->
  grid_to_cell f p true = Ok (if inside_cell f c then c else Cell (-1) (-1)).
Proof.
  unfold grid_to_cell. destruct (cast_int (fst p / fr_res f)); cbn; try discriminate.
  destruct (cast_int (snd p / fr_res f)); cbn; try discriminate. intros H. injection H as <-.
  now destruct (inside_cell f _).
Qed.
Lemma bounded_ub f p : grid_to_cell f p true = UB <-> grid_to_cell f p false = UB.
Proof.
  unfold grid_to_cell. destruct (cast_int (fst p / fr_res f)); cbn; try easy.
  destruct (cast_int (snd p / fr_res f)); cbn; try easy. destruct (inside_cell f _); easy.
Qed.

(** Whether the frames agree: SetPosition was not called after InitializeSize. *)
Definition aligned (f : frames) : Prop := fr_world_grid f = padd (fr_local f) (fr_local_grid f).

Lemma init_aligned f w h f' : fr_init f w h = Ok f' -> aligned f' /\ fr_res f' = fr_res f /\ fr_local f' = fr_local f /\
  fr_local_grid f' = (- w / 2, - h / 2).
Proof.
  unfold fr_init. destruct (cast_int _); cbn; try discriminate. destruct (cast_int _); cbn; try discriminate.
  intros H. injection H as <-. cbn. unfold aligned. cbn. auto.
Qed.

Lemma run_res ops : forall f f', fr_run f ops = Ok f' -> fr_res f' = fr_res f.
Proof.
  induction ops as [|[p|w h] ops IH]; cbn; intros f f' H.
  - now injection H as <-.
  - apply IH in H. exact H.
  - destruct (fr_init f w h) as [g| | |] eqn:E; cbn in H; try discriminate. apply IH in H. rewrite H.
    now apply init_aligned in E as (_ & -> & _).
Qed.

Lemma run_app ops1 : forall f ops2, fr_run f (ops1 ++ ops2) = bind (fr_run f ops1) (fun g => fr_run g ops2).
Proof.
  induction ops1 as [|[p|w h] ops1 IH]; intros f ops2; cbn [app fr_run bind]; auto.
  destruct (fr_init f w h); cbn; auto.
Qed.

Lemma aligned_same_cell f : aligned f ->
  (forall p b, world_to_cell f p b = local_to_cell f (world_to_local f p) b) /\
  (forall c, cell_to_world f c = local_to_world f (cell_to_local f c)).
Proof.
  unfold aligned. intros H. unfold world_to_cell, local_to_cell, world_to_local, cell_to_world, local_to_world, cell_to_local.
  rewrite H. split.
  - intros p b. f_equal. destruct p, (fr_local f), (fr_local_grid f). unfold psub, padd. cbn. f_equal; ring.
  - intros c. destruct (fr_local f), (fr_local_grid f). unfold psub, padd. cbn. unfold cell_to_grid. cbn. f_equal; ring.
Qed.

Lemma init_last_same_cell f0 pre w h f : fr_run f0 (pre ++ [FInit w h]) = Ok f ->
  (forall p b, world_to_cell f p b = local_to_cell f (world_to_local f p) b) /\
  (forall c, cell_to_world f c = local_to_world f (cell_to_local f c)).
Proof.
  rewrite run_app. destruct (fr_run f0 pre) as [g| | |]; cbn; try discriminate.
  destruct (fr_init g w h) as [g'| | |] eqn:E; cbn; try discriminate. intros H. injection H as <-.
  apply aligned_same_cell. now apply init_aligned in E.
Qed.

(** ** IsInsideMap *)
Lemma trunc_range x n : (0 < n)%Z -> ((0 <= Rtrunc x < n)%Z <-> -1 < x < IZR n).
Proof.
  intros Hn. assert (HnR : 1 <= IZR n) by (apply (IZR_le 1); lia). destruct (Rtrunc_spec x) as [(H0 & H1 & H2)|(H0 & H1 & H2)]; split; intros H.
  - assert (H3 : IZR (Rtrunc x) <= IZR n - 1) by (rewrite <- minus_IZR; apply IZR_le; lia). lra.
  - split; auto. apply lt_IZR. lra.
  - assert (Rtrunc x = 0%Z) by lia. rewrite H3 in H1. lra.
  - split; [|lia]. assert (-1 < IZR (Rtrunc x)) by lra. apply (lt_IZR (-1)) in H3. lia.
Qed.

Lemma div_range x r n : 0 < r -> (-1 < x / r < n <-> - r < x < n * r).
Proof.
  intros Hr. assert (E : x = x / r * r) by (field; lra). split; intros H.
  - rewrite E. split; nra.
  - rewrite E in H. split; nra.
Qed.

Lemma inside_position_iff f p b : 0 < fr_res f -> (0 < fr_rows f)%Z -> (0 < fr_cols f)%Z -> inside_position f p = Ok b ->
  (b = true <->
   - fr_res f < fst p - fst (fr_world_grid f) < IZR (fr_rows f) * fr_res f /\
   - fr_res f < snd p - snd (fr_world_grid f) < IZR (fr_cols f) * fr_res f).
Proof.
  intros Hr Hm Hn. unfold inside_position, world_to_cell, grid_to_cell. cbn [fst snd].
  set (x := fst p - _). set (y := snd p - _).
  destruct (cast_int (x / fr_res f)) as [r| | |] eqn:E1; cbn [bind]; try discriminate.
  destruct (cast_int (y / fr_res f)) as [c| | |] eqn:E2; cbn [bind]; try discriminate.
  apply cast_int_ok in E1 as [-> _]. apply cast_int_ok in E2 as [-> _]. cbn [negb].
  rewrite <- (div_range x _ _ Hr), <- (div_range y _ _ Hr), <- !trunc_range by auto.
  destruct (inside_cell f _) eqn:E; cbn [bind]; intros H; injection H as <-.
  - rewrite E. apply inside_cell_iff in E. unfold inside in E. cbn in E. intuition.
  - replace (inside_cell f (Cell (-1) (-1))) with false by (unfold inside_cell; cbn; auto).
    split; [discriminate|]. intros [H1 H2]. rewrite <- E. apply inside_cell_iff. unfold inside. cbn. lia.
Qed.

(** Positions near enough are never undefined. *)
Lemma inside_position_defined f p : 0 < fr_res f ->
  Rabs (fst p - fst (fr_world_grid f)) <= 2147483647 * fr_res f -> Rabs (snd p - snd (fr_world_grid f)) <= 2147483647 * fr_res f ->
  exists b, inside_position f p = Ok b.
Proof.
  intros Hr Hx Hy. unfold inside_position, world_to_cell, grid_to_cell. cbn [fst snd].
  assert (Hc : forall x, Rabs x <= 2147483647 * fr_res f -> exists n, cast_int (x / fr_res f) = Ok n).
  { intros x H. exists (Rtrunc (x / fr_res f)). apply cast_int_ok. split; auto. unfold is_int, int_min, int_max.
    assert (Hb : -2147483647 <= x / fr_res f <= 2147483647).
    { assert (E : x = x / fr_res f * fr_res f) by (field; lra). apply Rabs_between in H. rewrite E in H. split; nra. }
    destruct (Rtrunc_spec (x / fr_res f)) as [(H0 & H1 & H2)|(H0 & H1 & H2)].
    - assert (IZR (Rtrunc (x / fr_res f)) <= 2147483647) by lra. apply (le_IZR _ 2147483647) in H3. lia.
    - assert (-2147483647 <= IZR (Rtrunc (x / fr_res f))) by lra. apply (le_IZR (-2147483647)) in H3. lia. }
  destruct (Hc _ Hx) as [r ->]. destruct (Hc _ Hy) as [c ->]. cbn [bind negb]. destruct (inside_cell f _); cbn; eauto.
Qed.

(** A map of 10 by 10 cells of size 1 centred at the origin. *)
Definition map10 : frames := Frames 1 10 10 (0, 0) (-5, -5) (-5, -5).
Lemma map10_run junk : fr_run (fr_new 1 junk) [FPos (0, 0); FInit 10 10] = Ok map10.
Proof.
  cbn [fr_run]. unfold fr_init, fr_set_position, fr_new. cbn [fr_res fr_local].
  replace (10 / 1) with 10 by field. rewrite !Rceil_IZR. rewrite !cast_IZR by (unfold is_int, int_min, int_max; lia). cbn [bind].
  unfold map10, padd. cbn. do 3 f_equal; f_equal; field.
Qed.
