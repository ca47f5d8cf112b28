(** Path validation. *)
From Coq Require Import Reals Lra.
From Verif Require Import Base RealBase Grid_model Grid_spec Coords_model Coords_proofs Pose_model Straight_model Straight_spec Straight_proofs
  StateSpace_model StateSpace_proofs Gvd_model Gvd_spec PathCost_model Validator_model Validator_spec.
From Coq Require Import ZifyBool ZifyNat ZifyN.
Local Open Scope R_scope.

Lemma nat_above x : exists n, x < INR n.
Proof.
  exists (Z.to_nat (up x)). destruct (archimed x) as [H _]. eapply Rlt_le_trans; [exact H|]. rewrite INR_IZR_INZ. apply IZR_le. lia.
Qed.

Section Proofs.
Variable f : frames.
Variable clearance : cell -> res R.
Variables lb ub : pose.
Variables minSafe minStep : R.
Notation is_valid := (is_state_valid f clearance lb ub minSafe).
Notation step_of := (step_length f clearance lb ub minSafe minStep).
Notation loop := (validate_loop f clearance lb ub minSafe minStep).
Notation check := (is_path_valid f clearance lb ub minSafe minStep).

Lemma loop_unfold k p l last : loop (S k) p l last =
  if Rltb l (p_length p) then
    do s <- p_at p (l / p_length p);
    do v <- is_valid s;
    if negb v then Ok (false, last / p_length p)
    else do d <- step_of s; loop k p (l + d) l
  else Ok (true, 1).
Proof. reflexivity. Qed.

Lemma step_ge s d : step_of s = Ok d -> minStep <= d.
Proof.
  unfold step_length. destruct (world_to_cell f (position s) true); try discriminate. cbn [bind]. destruct (clearance a); try discriminate. cbn [bind].
  intros E. assert (d = Rmax (Rmin (a0 - minSafe) (Rmin (Rmin (Rmin (px s - px lb) (px ub - px s)) (py s - py lb)) (py ub - py s))) minStep) by congruence.
  subst d. apply Rmax_r.
Qed.

(** A valid state: what is known about it. *)
Lemma valid_facts s : is_valid s = Ok true -> exists c d, world_to_cell f (position s) true = Ok c /\ inside_cell f c = true /\
  clearance c = Ok d /\ minSafe <= d /\
  px lb <= fst (world_to_local f (position s)) <= px ub /\ py lb <= snd (world_to_local f (position s)) <= py ub.
Proof.
  unfold is_state_valid. destruct (world_to_cell f (position s) true) as [c| | |]; try discriminate. cbn [bind].
  destruct (se2_validate _ _ _) eqn:V; [|discriminate]. destruct (inside_cell f c) eqn:I; [|discriminate]. cbn [negb orb].
  destruct (clearance c) as [d| | |] eqn:D; try discriminate. cbn [bind]. destruct (Rleb_spec minSafe d) as [L|L]; [|discriminate].
  intros _. exists c, d. apply se2_validate_iff in V. cbn in V. tauto.
Qed.

(** Every length of an accepted path follows a valid sample by at most one step. *)
Lemma loop_covers p fuel : 0 < minStep -> forall l last r, loop fuel p l last = Ok (true, r) -> 0 <= l -> forall s, l <= s <= p_length p -> l < p_length p ->
  exists l0 x d, 0 <= l0 <= s /\ state_at p l0 x /\ is_valid x = Ok true /\ step_of x = Ok d /\ s <= l0 + d.
Proof.
  intros Hm. induction fuel as [|k IH]; intros l last r E Hl s Hs Hlt.
  - cbn in E. destruct (Rltb_spec l (p_length p)); [discriminate|exfalso; lra].
  - rewrite loop_unfold in E. destruct (Rltb_spec l (p_length p)) as [_|]; [|exfalso; lra].
    destruct (p_at p (l / p_length p)) as [x| | |] eqn:Ex; try discriminate. cbn [bind] in E.
    destruct (is_valid x) as [v| | |] eqn:Ev; try discriminate. cbn [bind] in E. destruct v; [|discriminate]. cbn [negb] in E.
    destruct (step_of x) as [d| | |] eqn:Ed; try discriminate. cbn [bind] in E. pose proof (step_ge x d Ed).
    destruct (Rle_dec s (l + d)) as [L|L].
    + exists l, x, d. repeat split; auto; lra.
    + destruct (IH (l + d) l r E ltac:(lra) s ltac:(lra) ltac:(lra)) as (l0 & x0 & d0 & A & B). exists l0, x0, d0. auto.
Qed.

Lemma check_covers p fuel r : 0 < minStep -> 0 < p_length p -> check fuel p = Ok (true, r) -> forall s, 0 <= s <= p_length p ->
  exists l0 x d, 0 <= l0 <= s /\ state_at p l0 x /\ is_valid x = Ok true /\ step_of x = Ok d /\ s <= l0 + d.
Proof.
  intros Hm Hp E s Hs. unfold is_path_valid in E. destruct (Reqb_spec (p_length p) 0); [exfalso; lra|].
  apply (loop_covers p fuel Hm 0 0 r E); lra.
Qed.

(** C28 *)
Lemma clearance_below p fuel r g eps : 0 < minStep -> 0 < p_length p -> unit_speed p -> nonexpansive g ->
  (forall q c d, world_to_cell f q true = Ok c -> inside_cell f c = true -> clearance c = Ok d -> d <= g q + eps) ->
  check fuel p = Ok (true, r) -> forall s x, 0 <= s <= p_length p -> state_at p s x -> minSafe - minStep - eps <= g (position x).
Proof.
  intros Hm Hp Hu Hg Hd E s x Hs Hx. destruct (check_covers p fuel r Hm Hp E s Hs) as (l & y & d & Hl & Hy & Hv & Hst & Hle).
  destruct (valid_facts y Hv) as (c & dc & Ec & Ic & Dc & Lc & _). specialize (Hd _ _ _ Ec Ic Dc).
  unfold step_length in Hst. rewrite Ec in Hst. cbn [bind] in Hst. rewrite Dc in Hst. cbn [bind] in Hst.
  set (border := Rmin (Rmin (Rmin (px y - px lb) (px ub - px y)) (py y - py lb)) (py ub - py y)) in Hst.
  assert (d = Rmax (Rmin (dc - minSafe) border) minStep) as -> by congruence.
  pose proof (Hu l s y x ltac:(lra) Hs Hy Hx) as U. pose proof (Hg (position y) (position x)) as G.
  assert (Rabs (l - s) = s - l) as A by (rewrite Rabs_left1; lra). rewrite A in U.
  pose proof (Rmin_l (dc - minSafe) border) as M. unfold Rmax in Hle. destruct (Rle_dec _ _); lra.
Qed.

Lemma border_below p fuel r : 0 < minStep -> 0 < p_length p -> unit_speed p -> fr_local f = (0, 0) ->
  check fuel p = Ok (true, r) -> forall s x, 0 <= s <= p_length p -> state_at p s x ->
  px lb - minStep <= px x <= px ub + minStep /\ py lb - minStep <= py x <= py ub + minStep.
Proof.
  intros Hm Hp Hu Hl0 E s x Hs Hx. destruct (check_covers p fuel r Hm Hp E s Hs) as (l & y & d & Hl & Hy & Hv & Hst & Hle).
  destruct (valid_facts y Hv) as (c & dc & Ec & Ic & Dc & Lc & Bx & By).
  unfold step_length in Hst. rewrite Ec in Hst. cbn [bind] in Hst. rewrite Dc in Hst. cbn [bind] in Hst.
  set (border := Rmin (Rmin (Rmin (px y - px lb) (px ub - px y)) (py y - py lb)) (py ub - py y)) in Hst.
  assert (d = Rmax (Rmin (dc - minSafe) border) minStep) as -> by congruence.
  pose proof (Hu l s y x ltac:(lra) Hs Hy Hx) as U. assert (Rabs (l - s) = s - l) as A by (rewrite Rabs_left1; lra). rewrite A in U.
  unfold world_to_local, psub in Bx, By. rewrite Hl0 in Bx, By. cbn in Bx, By.
  assert (Dx : Rabs (px x - px y) <= s - l /\ Rabs (py x - py y) <= s - l).
  { unfold distance in U. cbn [position fst snd] in U. set (u := px x - px y) in *. set (v := py x - py y) in *.
    split; (eapply Rle_trans; [|exact U]); rewrite <- sqrt_Rsqr_abs; apply sqrt_le_1_alt; unfold Rsqr; nra. }
  assert (Bd : border <= px y - px lb /\ border <= px ub - px y /\ border <= py y - py lb /\ border <= py ub - py y).
  { unfold border. pose proof (Rmin_l (Rmin (Rmin (px y - px lb) (px ub - px y)) (py y - py lb)) (py ub - py y)).
    pose proof (Rmin_r (Rmin (Rmin (px y - px lb) (px ub - px y)) (py y - py lb)) (py ub - py y)).
    pose proof (Rmin_l (Rmin (px y - px lb) (px ub - px y)) (py y - py lb)). pose proof (Rmin_r (Rmin (px y - px lb) (px ub - px y)) (py y - py lb)).
    pose proof (Rmin_l (px y - px lb) (px ub - px y)). pose proof (Rmin_r (px y - px lb) (px ub - px y)). lra. }
  destruct Dx as [D1 D2]. apply Rabs_between in D1, D2. pose proof (Rmin_r (dc - minSafe) border) as M.
  unfold Rmax in Hle. destruct (Rle_dec _ _); lra.
Qed.

(** C29 *)
Hypothesis Hstep : 0 < minStep.

Lemma loop_ratio p fuel : 0 < p_length p -> forall l last b r, loop fuel p l last = Ok (b, r) -> 0 <= last <= l -> last < p_length p ->
  (forall x, state_at p last x -> is_valid x = Ok true) \/ last = 0 ->
  0 <= r <= 1 /\ (b = true -> r = 1) /\ (b = false -> r < 1 /\ exists s, 0 <= s < p_length p /\ r = s / p_length p /\
     (s = 0 \/ forall x, state_at p s x -> is_valid x = Ok true)).
Proof.
  intros Hp. induction fuel as [|k IH]; intros l last b r E Hl Hlt Hv.
  - cbn in E. destruct (Rltb_spec l (p_length p)); [discriminate|]. assert (b = true /\ r = 1) as [-> ->] by (split; congruence).
    split; [lra|]. split; [auto|discriminate].
  - rewrite loop_unfold in E. destruct (Rltb_spec l (p_length p)) as [L|L].
    + destruct (p_at p (l / p_length p)) as [x| | |] eqn:Ex; try discriminate. cbn [bind] in E.
      destruct (is_valid x) as [v| | |] eqn:Ev; try discriminate. cbn [bind] in E. destruct v; cbn [negb] in E.
      * destruct (step_of x) as [d| | |] eqn:Ed; try discriminate. cbn [bind] in E. pose proof (step_ge x d Ed).
        apply (IH (l + d) l); auto; try lra. left. intros x' E'. unfold state_at in E'. assert (x' = x) as -> by congruence. exact Ev.
      * assert (b = false /\ r = last / p_length p) as [-> ->] by (split; congruence).
        assert (0 <= last / p_length p) by (apply Rmult_le_pos; [lra|left; now apply Rinv_0_lt_compat]).
        assert (last / p_length p < 1).
        { apply (Rmult_lt_reg_r (p_length p)); auto. unfold Rdiv. rewrite Rmult_assoc, Rinv_l; lra. }
        split; [lra|]. split; [discriminate|]. intros _. split; auto. exists last. split; [lra|]. split; auto. tauto.
    + assert (b = true /\ r = 1) as [-> ->] by (split; congruence). split; [lra|]. split; [auto|discriminate].
Qed.

Lemma check_ratio p fuel b r : 0 <= p_length p -> p_at p 0 = Ok (p_init p) -> check fuel p = Ok (b, r) ->
  0 <= r <= 1 /\ (b = true -> r = 1) /\
  (b = false -> is_valid (p_init p) = Ok true -> r < 1 /\ forall x, p_at p r = Ok x -> is_valid x = Ok true).
Proof.
  intros Hp H0 E. unfold is_path_valid in E. destruct (Reqb_spec (p_length p) 0) as [Z|Z].
  - destruct (is_valid (p_init p)) as [v| | |] eqn:Ev; try discriminate. cbn [bind] in E. assert (b = v /\ r = 1) as [-> ->] by (split; congruence).
    split; [lra|]. split; auto. intros -> K. congruence.
  - assert (0 < p_length p) as Hp' by lra. apply loop_ratio in E as (A & B & D); auto; try lra. split; auto. split; auto.
    intros Eb Vi. destruct (D Eb) as (Lr & s & Hs & -> & [->|K]); split; auto.
    intros x Ex. replace (0 / p_length p) with 0 in Ex by (field; lra). assert (x = p_init p) as -> by congruence. exact Vi.
Qed.

(** Termination: [k] steps are enough if they exceed the length. *)
Notation checkable := (checkable f clearance lb ub minSafe).

Lemma step_defined x : is_valid x = Ok true -> exists d, step_of x = Ok d.
Proof.
  intros V. destruct (valid_facts x V) as (c & d & Ec & _ & Ed & _). unfold step_length. rewrite Ec. cbn [bind]. rewrite Ed. cbn [bind]. eauto.
Qed.

Lemma loop_ends p : total p -> checkable p -> 0 < p_length p -> forall fuel l last, 0 <= l -> p_length p <= l + INR fuel * minStep ->
  exists b r, loop fuel p l last = Ok (b, r).
Proof.
  intros Ht [_ Hdef] Hp. induction fuel as [|k IH]; intros l last Hl Hb.
  - cbn. destruct (Rltb_spec l (p_length p)); [cbn in Hb; exfalso; lra|]. eauto.
  - rewrite loop_unfold. destruct (Rltb_spec l (p_length p)) as [L|L]; [|eauto].
    assert (Hr : 0 <= l / p_length p <= 1).
    { split; [apply Rmult_le_pos; [lra|left; now apply Rinv_0_lt_compat]|]. apply (Rmult_le_reg_r (p_length p)); auto.
      unfold Rdiv. rewrite Rmult_assoc, Rinv_l; lra. }
    destruct (Ht _ Hr) as [x Ex].
    rewrite Ex. cbn [bind]. destruct (Hdef _ x Hr Ex) as [v Ev]. rewrite Ev. cbn [bind]. destruct v; cbn [negb]; [|eauto].
    destruct (step_defined x Ev) as [d Ed]. rewrite Ed. cbn [bind]. pose proof (step_ge x d Ed). rewrite S_INR in Hb.
    apply IH; lra.
Qed.

Lemma loop_more p k : forall l last x, loop k p l last = Ok x -> forall n, (k <= n)%nat -> loop n p l last = Ok x.
Proof.
  induction k as [|k IH]; intros l last x E n Hn.
  - destruct n; auto. rewrite loop_unfold. cbn in E. destruct (Rltb_spec l (p_length p)); [discriminate|exact E].
  - destruct n as [|n]; [lia|]. rewrite loop_unfold in *. destruct (Rltb_spec l (p_length p)); [|exact E].
    destruct (p_at p (l / p_length p)) as [y| | |]; try discriminate. cbn [bind] in *.
    destruct (is_valid y) as [v| | |]; try discriminate. cbn [bind] in *. destruct v; cbn [negb] in *; auto.
    destruct (step_of y) as [d| | |]; try discriminate. cbn [bind] in *. apply IH; auto. lia.
Qed.

Lemma check_ends p : total p -> checkable p -> 0 <= p_length p -> exists b r, forall fuel, p_length p <= INR fuel * minStep -> check fuel p = Ok (b, r).
Proof.
  intros Ht Hc Hp. unfold is_path_valid. destruct (Reqb_spec (p_length p) 0) as [Z|Z].
  - destruct (proj1 Hc) as [v ->]. cbn [bind]. eauto.
  - assert (H : exists b r k, p_length p <= INR k * minStep /\ loop k p 0 0 = Ok (b, r) /\
      forall n, p_length p <= INR n * minStep -> exists b' r', loop n p 0 0 = Ok (b', r')).
    { destruct (nat_above (p_length p / minStep)) as [k Hk]. assert (p_length p <= INR k * minStep).
      { apply (Rmult_lt_compat_r minStep) in Hk; auto. unfold Rdiv in Hk. rewrite Rmult_assoc, Rinv_l in Hk; lra. }
      destruct (loop_ends p Ht Hc ltac:(lra) k 0 0) as (b & r & E); try lra. exists b, r, k. split; auto. split; auto.
      intros n Hn. apply loop_ends; auto; lra. }
    destruct H as (b & r & k & _ & E & Hn). exists b, r. intros n Hb. destruct (Hn n Hb) as (b' & r' & E').
    pose proof (loop_more p k 0 0 _ E (Nat.max k n) ltac:(lia)) as M1. pose proof (loop_more p n 0 0 _ E' (Nat.max k n) ltac:(lia)) as M2. congruence.
Qed.
End Proofs.

(** ** Distance to the obstacle cells of a map *)
Lemma distance_triangle a b c : distance a c <= distance a b + distance b c.
Proof.
  assert (E : forall u v, distance u v = dist_euc (fst u) (snd u) (fst v) (snd v)).
  { intros u v. unfold distance, dist_euc. f_equal. unfold Rsqr. ring. }
  rewrite !E. apply triangle.
Qed.

Lemma distance_nonexpansive o : nonexpansive (fun q => distance q o).
Proof. intros a b. pose proof (distance_triangle a b o). lra. Qed.

Lemma trunc_near x : Rabs (x - IZR (Rtrunc x)) <= 1.
Proof.
  destruct (Rtrunc_spec x) as [(_ & H & _)|(_ & H & _)]; apply Rabs_le; lra.
Qed.

Lemma cast_trunc x n : cast_int x = Ok n -> n = Rtrunc x.
Proof. intros E. now apply cast_int_ok in E. Qed.

Lemma cell_near f p c : 0 < fr_res f -> world_to_cell f p true = Ok c -> inside_cell f c = true ->
  distance p (cell_to_world f c) <= sqrt 2 * fr_res f.
Proof.
  intros Hr E Hi. unfold world_to_cell, grid_to_cell in E. cbn [fst snd] in E.
  destruct (cast_int ((fst p - fst (fr_world_grid f)) / fr_res f)) as [r| | |] eqn:E1; try discriminate. cbn [bind] in E.
  destruct (cast_int ((snd p - snd (fr_world_grid f)) / fr_res f)) as [k| | |] eqn:E2; try discriminate. cbn [bind negb] in E.
  assert (c = Cell r k) as ->.
  { destruct (inside_cell f (Cell r k)) eqn:I; [congruence|]. assert (c = Cell (-1) (-1)) by congruence. subst c. discriminate Hi. }
  apply cast_trunc in E1, E2. subst r k. unfold cell_to_world, cell_to_grid, padd, distance. cbn [row col fst snd].
  set (x := (fst p - fst (fr_world_grid f)) / fr_res f). set (y := (snd p - snd (fr_world_grid f)) / fr_res f).
  pose proof (trunc_near x) as X. pose proof (trunc_near y) as Y.
  replace (fst (fr_world_grid f) + IZR (Rtrunc x) * fr_res f - fst p) with (fr_res f * - (x - IZR (Rtrunc x))) by (unfold x; field; lra).
  replace (snd (fr_world_grid f) + IZR (Rtrunc y) * fr_res f - snd p) with (fr_res f * - (y - IZR (Rtrunc y))) by (unfold y; field; lra).
  rewrite sqrt_scale, (Rabs_pos_eq (fr_res f)) by lra. rewrite Rmult_comm. apply Rmult_le_compat_r; [lra|]. apply sqrt_le_1_alt.
  apply Rabs_between in X, Y. nra.
Qed.

Lemma cell_distance f a b : 0 <= fr_res f -> distance (cell_to_world f a) (cell_to_world f b) = reported_distance (fr_res f) (sqd a b).
Proof.
  intros Hr. unfold distance, reported_distance, cell_to_world, cell_to_grid, padd. cbn [fst snd].
  replace (fst (fr_world_grid f) + IZR (row b) * fr_res f - (fst (fr_world_grid f) + IZR (row a) * fr_res f)) with (fr_res f * (IZR (row b) - IZR (row a))) by ring.
  replace (snd (fr_world_grid f) + IZR (col b) * fr_res f - (snd (fr_world_grid f) + IZR (col a) * fr_res f)) with (fr_res f * (IZR (col b) - IZR (col a))) by ring.
  rewrite sqrt_scale, Rabs_pos_eq by auto. rewrite Rmult_comm. f_equal. unfold sqd. rewrite plus_IZR, !mult_IZR, !minus_IZR. f_equal. ring.
Qed.

Lemma map_clearance_below f m lb ub minSafe minStep p fuel r o eta : 0 < fr_res f -> 0 < minStep -> 0 < p_length p -> unit_speed p ->
  (forall c d, inside_cell f c = true -> squared_distance_to_obstacle m c = Ok d ->
     reported_distance (fr_res f) d <= reported_distance (fr_res f) (sqd c o) + eta) ->
  is_path_valid f (map_clearance m (fr_res f)) lb ub minSafe minStep fuel p = Ok (true, r) ->
  forall s x, 0 <= s <= p_length p -> state_at p s x ->
  minSafe - minStep - sqrt 2 * fr_res f - eta <= distance (position x) (cell_to_world f o).
Proof.
  intros Hr Hm Hp Hu Hd E s x Hs Hx.
  replace (minSafe - minStep - sqrt 2 * fr_res f - eta) with (minSafe - minStep - (sqrt 2 * fr_res f + eta)) by ring.
  refine (clearance_below f (map_clearance m (fr_res f)) lb ub minSafe minStep p fuel r (fun q => distance q (cell_to_world f o)) _ Hm Hp Hu _ _ E s x Hs Hx).
  - apply distance_nonexpansive.
  - intros q c d Ec Ic Ed. unfold map_clearance in Ed. destruct (squared_distance_to_obstacle m c) as [z| | |] eqn:Ez; try discriminate.
    cbn [rmap bind] in Ed. assert (d = reported_distance (fr_res f) z) as -> by congruence.
    specialize (Hd c z Ic Ez). rewrite <- cell_distance in Hd by lra. pose proof (cell_near f q c Hr Ec Ic).
    pose proof (distance_triangle (cell_to_world f c) q (cell_to_world f o)). rewrite (distance_sym (cell_to_world f c) q) in *. lra.
Qed.

Lemma straight_unit_speed p : sbuilt p -> 0 < s_length p -> unit_speed (straight p).
Proof.
  intros Hb Hp s t x y Hs Ht Ex Ey. unfold state_at in *. cbn [straight p_length p_at] in *.
  assert (x = s_at p (s / s_length p)) as -> by congruence. assert (y = s_at p (t / s_length p)) as -> by congruence.
  rewrite (s_at_distance p _ _ Hb). unfold Rdiv. rewrite <- Rmult_minus_distr_r, Rabs_mult, (Rabs_pos_eq (/ s_length p)) by (left; now apply Rinv_0_lt_compat).
  rewrite Rmult_assoc, Rinv_l, Rmult_1_r, Rabs_minus_sym by lra. apply Rle_refl.
Qed.

(** The error of the distance map bounds the one of the clearance. *)
Lemma map_error R C c o d res : 0 <= res -> inside R C c -> inside R C o -> (0 <= d)%Z -> IZR d <= (4 - 2 * sqrt 2) * IZR (sqd c o) ->
  reported_distance res d <= reported_distance res (sqd c o)
    + (sqrt (4 - 2 * sqrt 2) - 1) * reported_distance res ((R - 1) * (R - 1) + (C - 1) * (C - 1)).
Proof.
  intros Hr Hc Ho Hd Hle. unfold reported_distance.
  assert (K : 1 <= sqrt (4 - 2 * sqrt 2)).
  { rewrite <- sqrt_1 at 1. apply sqrt_le_1_alt. assert (sqrt 2 <= 3 / 2); [|lra]. rewrite <- (sqrt_Rsqr (3 / 2)) by lra. apply sqrt_le_1_alt. unfold Rsqr. lra. }
  assert (K2 : 0 <= 4 - 2 * sqrt 2). { destruct (Rle_dec 0 (4 - 2 * sqrt 2)) as [|N]; auto. exfalso. rewrite sqrt_neg_0 in K; lra. }
  assert (S0 : (0 <= sqd c o)%Z) by (unfold sqd; pose proof (Z.square_nonneg (row c - row o)); pose proof (Z.square_nonneg (col c - col o)); lia).
  assert (S1 : sqrt (IZR d) <= sqrt (4 - 2 * sqrt 2) * sqrt (IZR (sqd c o))).
  { rewrite <- sqrt_mult; [apply sqrt_le_1_alt; auto|auto|]. now apply IZR_le. }
  assert (S2 : sqrt (IZR (sqd c o)) <= sqrt (IZR ((R - 1) * (R - 1) + (C - 1) * (C - 1)))).
  { apply sqrt_le_1_alt, IZR_le. unfold sqd, inside in *. nia. }
  set (k := sqrt (4 - 2 * sqrt 2)) in *. set (a := sqrt (IZR d)) in *. set (b := sqrt (IZR (sqd c o))) in *.
  set (e := sqrt (IZR ((R - 1) * (R - 1) + (C - 1) * (C - 1)))) in *. assert (0 <= b) by apply sqrt_pos.
  replace (b * res + (k - 1) * (e * res)) with ((b + (k - 1) * e) * res) by ring. apply Rmult_le_compat_r; auto.
  assert ((k - 1) * b <= (k - 1) * e) by (apply Rmult_le_compat_l; lra). lra.
Qed.
