(** Hybrid A* with validation on a map: clearance and termination. *)
From Coq Require Import Reals Lra.
From Verif Require Import Base RealBase Grid_model Coords_model Pose_model Pose_spec Pose_proofs Straight_model Straight_spec Straight_proofs Bicycle_model Bicycle_spec Bicycle_proofs
  Composite_model Rs_model Rs_spec Rs_proofs RsSolver_proofs Validator_model Validator_spec Validator_proofs ValidatorPart_proofs Frontier_model Frontier_spec AStar_model AStar_spec AStar_proofs
  Hybrid_model Hybrid_spec Hybrid_proofs HybridSample_proofs HybridCell_proofs HybridPath_proofs.
From Coq Require Import ZifyBool ZifyNat ZifyN.
Local Open Scope R_scope.

Lemma sane_unit_speed p : sane p -> 0 < dp_length p -> unit_speed (as_path p).
Proof.
  intros Sp L s t x y Hs Ht E1 E2. unfold state_at in *. cbn [as_path p_length p_at] in *. assert (x = dp_at p (s / dp_length p)) as -> by congruence.
  assert (y = dp_at p (t / dp_length p)) as -> by congruence.
  assert (B : forall u, 0 <= u <= dp_length p -> 0 <= u / dp_length p <= 1).
  { intros u Hu. split; [apply Rmult_le_pos; [lra|left; now apply Rinv_0_lt_compat]|]. apply (Rmult_le_reg_r (dp_length p)); auto. unfold Rdiv. rewrite Rmult_assoc, Rinv_l; lra. }
  eapply Rle_trans; [apply (sn_speed p Sp); auto|]. rewrite <- (Rabs_pos_eq (dp_length p)) at 3 by lra. rewrite <- Rabs_mult. right. f_equal. field. lra.
Qed.

Section Safe.
Variable m : params.
Variable f : frames.
Variable field : cell -> res (option R).
Variable vres : R.
Variable clearance : cell -> res R.
Variables lb ub : pose.
Variables minSafe minStep : R.
Variable pfuel : nat.
Variable heur : pose -> res xreal.
Variable Rng : Type.
Variable draw : Rng -> R * Rng.
Variable goal : pose.
Notation validate := (is_path_valid f clearance lb ub minSafe minStep pfuel).
Notation is_valid := (is_state_valid f clearance lb ub minSafe).
Notation covered := (covered f clearance lb ub minSafe minStep).
Notation h_succ := (h_succ m f field vres validate heur Rng draw goal).
Notation graph_search := (graph_search m f field vres validate heur Rng draw goal).
Notation transition := (transition m validate goal).
Hypothesis Hr : 0 < hp_radius m.
Hypothesis Hres : 0 < hp_res m.
Hypothesis Hstep : 0 < minStep.

Lemma validate_ratio p r : 0 <= p_length p -> p_at p 0 = Ok (p_init p) -> validate p = Ok (false, r) -> 0 <= r <= 1.
Proof. intros L E V. exact (proj1 (check_ratio f clearance lb ub minSafe minStep Hstep p pfuel false r L E V)). Qed.

Definition placed (s : hstate) : Prop := discretize m (hs_pose s) = Ok (hs_cell s).

(** A motion is part of a path that is covered up to there, or does not move. *)
Lemma transition_covered s p t : placed s -> transition s p t -> sane p /\
  ((exists p0 q, sane p0 /\ 0 < dp_length p0 /\ 0 < q <= 1 /\ dp_length p = q * dp_length p0 /\ (forall a, dp_at p a = dp_at p0 (q * a)) /\
     (forall s, 0 <= s <= q * dp_length p0 -> covered (as_path p0) s)) \/
   (dp_length p = 0 /\ is_valid (dp_init p) = Ok true /\ dp_at p 0 = dp_init p)).
Proof.
  intros Hs T. split; [exact (transition_sane _ _ _ Hr Hres validate_ratio _ _ _ T)|]. destruct T as (Et & Ed & _ & _ & [(c & delta & dir & c0 & -> & _ & _ & E0 & Hc)|(g & Eg & -> & q & Hq)]).
  - left. assert (L0 : c_length c0 = hp_res m * (3 / 2)) by (now rewrite <- E0). assert (I0 : c_init c0 = hs_pose s) by (now rewrite <- E0).
    assert (S0 : sane (Steered c0)) by (apply steered_sane; [now rewrite <- E0|rewrite L0; lra]).
    assert (P0 : 0 < p_length (as_path (Steered c0))) by (cbn; rewrite L0; lra). destruct Hc as [[-> [q V]]|(q & V & -> & Hne)].
    + exists (Steered c0), 1. split; [exact S0|]. split; [exact P0|]. split; [lra|]. split; [ring|]. split; [intros a; now rewrite Rmult_1_l|].
      intros u Hu. apply (check_part _ _ _ _ _ _ _ pfuel true q Hstep P0 V); [now left| |discriminate]. cbn [as_path p_length]. lra.
    + assert (Q : 0 <= q <= 1) by (apply (validate_ratio _ _ (Rlt_le _ _ P0) (steered_start c0) V)).
      assert (q <> 0) as Qn.
      { intros ->. cbn [dp_final c_truncate c_final] in Et. rewrite c_at_0, I0 in Et. rewrite Et in Ed. unfold placed in Hs.
        unfold hs_eqb in Hne. rewrite (proj2 (ipose_eqb_eq _ _)) in Hne; [discriminate|congruence]. }
      exists (Steered c0), q. split; [exact S0|]. split; [exact P0|]. split; [lra|]. split; [cbn; ring|]. split; [intros a; apply c_truncate_at|].
      intros u Hu. cbn [as_path p_length dp_length] in *. apply (check_part _ _ _ _ _ _ (as_path (Steered c0)) pfuel false q Hstep P0 V); [right; lra| |intros _; exact (proj2 Hu)].
      cbn [as_path p_length dp_length]. nra.
  - destruct (optimal_path_spec (hs_pose s) goal (hp_radius m) (hp_reverse m) (hp_forward m) (hp_switching m) Hr) as (w & g' & c & E & _ & O & _).
    assert (g' = g) as -> by congruence. destruct (offered_goal _ _ _ _ _ Hr O) as (l & Hg & _). set (p := Connected (rs_new (hs_pose s) g (hp_radius m))) in *.
    pose proof (connected_sane (hs_pose s) g l _ Hg Hr) as Sp. fold p in Sp. pose proof (sn_length p Sp) as Lp. destruct (Req_dec (dp_length p) 0) as [Z|N].
    + right. split; [exact Z|]. unfold is_path_valid in Hq. cbn [as_path p_length p_init] in Hq. rewrite Z in Hq. destruct (Reqb_spec 0 0); [|contradiction].
      destruct (is_valid (dp_init p)) as [v| | |]; try discriminate. cbn [bind] in Hq. split; [congruence|].
      unfold p. cbn [dp_at dp_init]. unfold rs_at, rs_interp. change (q_length (rs_new (hs_pose s) g (hp_radius m))) with (dp_length p). rewrite Z.
      destruct (Reqb_spec 0 0); [reflexivity|contradiction].
    + left. assert (P0 : 0 < p_length (as_path p)) by (cbn [as_path p_length]; lra). exists p, 1. split; [exact Sp|]. split; [exact P0|]. split; [lra|]. split; [ring|].
      split; [intros a; now rewrite Rmult_1_l|]. intros u Hu. apply (check_part _ _ _ _ _ _ _ pfuel true q Hstep P0 Hq); [now left| |discriminate]. cbn [as_path p_length]. lra.
Qed.

(** ** Clearance *)
Lemma transition_clearance d eps s p t : placed s -> transition s p t -> nonexpansive d ->
  (forall q c v, world_to_cell f q true = Ok c -> inside_cell f c = true -> clearance c = Ok v -> v <= d q + eps) ->
  forall a, 0 <= a <= 1 -> minSafe - minStep - eps <= d (position (dp_at p a)).
Proof.
  intros Hs T Hn Hd a Ha. destruct (transition_covered s p t Hs T) as [Sp [(p0 & q & S0 & L0 & Hq & Lp & At & C)|(Z & V & E0)]].
  - rewrite At. assert (B : 0 <= q * a <= q) by nra. apply (covered_clearance f clearance lb ub minSafe minStep (as_path p0) d eps (q * a * dp_length p0)); auto.
    + now apply sane_unit_speed.
    + apply C. nra.
    + cbn [as_path p_length]. nra.
    + unfold state_at. cbn [as_path p_at p_length]. f_equal. f_equal. field. lra.
  - rewrite (sn_still p Sp Z a Ha), E0. destruct (valid_facts f clearance lb ub minSafe _ V) as (c & v & Ec & Ic & Dc & Lc & _). specialize (Hd _ _ _ Ec Ic Dc). lra.
Qed.

Lemma path_clearance d eps vfuel : nonexpansive d ->
  (forall q c v, world_to_cell f q true = Ok c -> inside_cell f c = true -> clearance c = Ok v -> v <= d q + eps) ->
  forall l s t, placed s -> is_path (h_succ vfuel) s l t -> forall p a, In p (path_actions l) -> 0 <= a <= 1 -> minSafe - minStep - eps <= d (position (dp_at p a)).
Proof.
  intros Hn Hd. induction l as [|e l IH]; intros s t Hs H p a I Ha; cbn [is_path] in H; [destruct I|]. destruct H as [[g I'] H]. apply succ_spec in I'.
  cbn [path_actions map] in I. destruct I as [<-|I]; [exact (transition_clearance d eps _ _ _ Hs I' Hn Hd a Ha)|].
  refine (IH _ _ _ H p a I Ha). apply I'.
Qed.

Lemma search_placed vfuel fuel init g n st : graph_search vfuel fuel init g = Ok (Some n, st) ->
  exists s l, hs_pose s = init /\ placed s /\ is_path (h_succ vfuel) s l (n_state n) /\ search_motions (Some n) = Ok (path_actions l).
Proof.
  unfold Hybrid_model.graph_search. unfold state_of_pose. destruct (discretize m init) as [ci| | |] eqn:Ei; try discriminate. cbn [bind]. destruct (discretize m goal) as [cg| | |]; try discriminate. cbn [bind].
  destruct (search_path _ _ _ _ _ _ _ _ _ _ _ _) as [[sol st']| | |] eqn:E; try discriminate. cbn [bind].
  destruct (st_prop st'); try discriminate. cbn [bind]. intros K. assert (sol = Some n) as -> by congruence.
  apply (@search_sound _ _ _ _ _ _ _ _ dflt_path _ _ _ _ _ hs_equiv x_swo) in E as (l & Hp & _ & _ & Ha & _).
  eexists _, l. split; [|split; [|split; [exact Hp|exact Ha]]]; [reflexivity|exact Ei].
Qed.

Lemma motions_clearance d eps vfuel fuel init g n st : nonexpansive d ->
  (forall q c v, world_to_cell f q true = Ok c -> inside_cell f c = true -> clearance c = Ok v -> v <= d q + eps) ->
  graph_search vfuel fuel init g = Ok (Some n, st) ->
  exists l, search_motions (Some n) = Ok l /\ forall p a, In p l -> 0 <= a <= 1 -> minSafe - minStep - eps <= d (position (dp_at p a)).
Proof.
  intros Hn Hd E. destruct (search_placed _ _ _ _ _ _ E) as (s & l & _ & Hs & Hp & Ha). exists (path_actions l). split; [exact Ha|]. exact (path_clearance d eps vfuel Hn Hd l s _ Hs Hp).
Qed.

(** ** Termination *)
Definition reach : R := Rabs (px lb) + Rabs (px ub) + Rabs (py lb) + Rabs (py ub) + Rabs (fst (fr_local f)) + Rabs (snd (fr_local f)) + 3 / 2 * hp_res m.

Lemma trunc_bound x B : Rabs x <= IZR B -> (- B <= Rtrunc x <= B)%Z.
Proof.
  intros H. assert (K : - IZR B <= x <= IZR B) by (unfold Rabs in H; destruct (Rcase_abs x); lra). destruct (Rtrunc_spec x) as [(A & B' & C)|(A & B' & C)].
  - assert (IZR (Rtrunc x) <= IZR B) as L by lra. apply le_IZR in L. assert (0 <= IZR B) as L' by lra. apply (le_IZR 0) in L'. lia.
  - assert (IZR (- B) <= IZR (Rtrunc x)) as L by (rewrite opp_IZR; lra). apply le_IZR in L. assert (0 <= IZR B) as L' by lra. apply (le_IZR 0) in L'. lia.
Qed.

Definition in_box (B : Z) (c : ipose) : Prop := (- B <= ix c <= B /\ - B <= iy c <= B /\ -3 <= ith c <= 3)%Z.

Lemma discretize_box p c B : Rabs (px p) / hp_res m <= IZR B -> Rabs (py p) / hp_res m <= IZR B -> discretize m p = Ok c -> in_box B c.
Proof.
  intros X Y E. apply discretize_inv in E as (Ex & Ey & Et). unfold in_box. rewrite Ex, Ey, Et.
  assert (D : forall v, Rabs (v / hp_res m) = Rabs v / hp_res m) by (intros v; unfold Rdiv; rewrite Rabs_mult, Rabs_inv, (Rabs_pos_eq (hp_res m)); lra).
  split; [apply trunc_bound; now rewrite D|]. split; [apply trunc_bound; now rewrite D|apply int_wrap_range].
Qed.

Lemma distance_coords a b : Rabs (fst b - fst a) <= distance a b /\ Rabs (snd b - snd a) <= distance a b.
Proof.
  unfold distance. set (u := fst b - fst a). set (v := snd b - snd a). split; rewrite <- sqrt_Rsqr_abs; apply sqrt_le_1_alt; unfold Rsqr; nra.
Qed.

Lemma transition_box B s p t : placed s -> transition s p t -> reach / hp_res m <= IZR B -> Rabs (px goal) / hp_res m <= IZR B -> Rabs (py goal) / hp_res m <= IZR B -> in_box B (hs_cell t).
Proof.
  intros Hs T Hb Gx Gy. pose proof T as (Et & Ed & _ & _ & [(c & delta & dir & c0 & -> & _ & _ & E0 & Hc)|(g & Eg & -> & _)]).
  - destruct (transition_path _ _ _ Hr _ _ _ T) as (P0 & P1 & _). destruct (transition_covered s _ t Hs T) as [Sp [(p0 & q & S0 & L0 & Hq & Lp & At & C)|(Z & V & V0)]].
    + assert (V : is_valid (dp_at (Steered c) 0) = Ok true).
      { rewrite At, Rmult_0_r. refine (covered_start _ _ _ _ _ _ (as_path p0) _ (C 0 _) _); [nra|]. unfold state_at. cbn [as_path p_at p_length]. unfold Rdiv. now rewrite Rmult_0_l. }
      assert (L : c_length c <= 3 / 2 * hp_res m).
      { assert (L0' : c_length c0 = hp_res m * (3 / 2)) by (now rewrite <- E0). destruct Hc as [[-> _]|(q' & V' & -> & _)]; [lra|]. cbn [c_truncate c_length]. rewrite L0'.
        assert (0 <= q' <= 1); [|nra]. apply (validate_ratio (as_path (Steered c0))); [|apply steered_start|exact V']. cbn [as_path p_length dp_length]. lra. }
      pose proof (sn_speed _ Sp 0 1 ltac:(lra) ltac:(lra)) as D. rewrite Rabs_left1 in D by lra. cbn [dp_length] in D.
      destruct (valid_facts f clearance lb ub minSafe _ V) as (_ & _ & _ & _ & _ & _ & Bx & By). rewrite P1 in D. destruct (distance_coords (position (dp_at (Steered c) 0)) (position (hs_pose t))) as [D1 D2].
      cbn [position fst snd] in D1, D2. unfold world_to_local, psub in Bx, By. cbn [position fst snd] in Bx, By. set (x := dp_at (Steered c) 0) in *.
      assert (forall u, u <= Rabs u /\ - u <= Rabs u) as A by (intros u; unfold Rabs; destruct (Rcase_abs u); lra).
      pose proof (A (px lb)). pose proof (A (px ub)). pose proof (A (py lb)). pose proof (A (py ub)). pose proof (A (fst (fr_local f))). pose proof (A (snd (fr_local f))).
      pose proof (A (px (hs_pose t) - px x)). pose proof (A (py (hs_pose t) - py x)).
      assert (forall u, - reach <= u <= reach -> Rabs u / hp_res m <= IZR B) as G.
      { intros u Hu. eapply Rle_trans; [|exact Hb]. apply Rmult_le_compat_r; [left; now apply Rinv_0_lt_compat|]. now apply Rabs_le. }
      apply (discretize_box (hs_pose t)); auto; apply G; unfold reach; lra.
    + exfalso. destruct Hc as [[-> _]|(q' & V' & -> & Hne)]; [rewrite <- E0 in Z; cbn in Z; lra|].
      assert (q' = 0) as -> by (rewrite <- E0 in Z; cbn in Z; nra). cbn [dp_final c_truncate c_final] in Et. rewrite c_at_0 in Et. rewrite <- E0 in Et. cbn [c_new c_init] in Et.
      rewrite Et in Ed. unfold placed in Hs. unfold hs_eqb in Hne. rewrite (proj2 (ipose_eqb_eq _ _)) in Hne; [discriminate|congruence].
  - destruct (optimal_path_spec (hs_pose s) goal (hp_radius m) (hp_reverse m) (hp_forward m) (hp_switching m) Hr) as (w & g' & c & E & _ & _ & _ & Hq & _).
    assert (g' = g) as -> by congruence. cbn [dp_final] in Et. rewrite <- Et in Hq. destruct Hq as (X & Y & _). apply (discretize_box (hs_pose t)); auto; congruence.
Qed.

Lemma path_box B vfuel : reach / hp_res m <= IZR B -> Rabs (px goal) / hp_res m <= IZR B -> Rabs (py goal) / hp_res m <= IZR B ->
  forall l s t, placed s -> is_path (h_succ vfuel) s l t -> t = s \/ in_box B (hs_cell t).
Proof.
  intros Hb Gx Gy. induction l as [|e l IH]; intros s t Hs H; cbn [is_path] in H; [left; congruence|]. destruct H as [[g I] H]. apply succ_spec in I.
  destruct (IH _ _ ltac:(apply I) H) as [->|K]; auto. right. exact (transition_box B _ _ _ Hs I Hb Gx Gy).
Qed.

Definition zrange (B : Z) : list Z := map (fun i => (Z.of_nat i - B)%Z) (seq 0 (Z.to_nat (2 * B + 1))).
Lemma zrange_in B z : (- B <= z <= B)%Z -> In z (zrange B).
Proof. intros H. apply in_map_iff. exists (Z.to_nat (z + B)). split; [lia|]. apply in_seq. lia. Qed.
Lemma zrange_length B : length (zrange B) = Z.to_nat (2 * B + 1).
Proof. unfold zrange. now rewrite map_length, seq_length. Qed.

(** All cells of a box. *)
Definition box (B : Z) : list ipose := flat_map (fun x => flat_map (fun y => map (IPose x y) (zrange 3)) (zrange B)) (zrange B).
Lemma box_in B c : in_box B c -> In c (box B).
Proof.
  intros (X & Y & T). apply in_flat_map. exists (ix c). split; [now apply zrange_in|]. apply in_flat_map. exists (iy c). split; [now apply zrange_in|].
  apply in_map_iff. exists (ith c). split; [destruct c; reflexivity|]. now apply zrange_in.
Qed.
Lemma flat_length {A B} (g : A -> list B) k l : (forall x, length (g x) = k) -> length (flat_map g l) = (length l * k)%nat.
Proof. intros H. induction l as [|x l IH]; cbn; [reflexivity|]. now rewrite app_length, H, IH. Qed.
Lemma box_length B : length (box B) = (Z.to_nat (2 * B + 1) * (Z.to_nat (2 * B + 1) * 7))%nat.
Proof.
  unfold box. rewrite (flat_length _ (Z.to_nat (2 * B + 1) * 7)), zrange_length; [reflexivity|]. intros x. rewrite (flat_length _ 7), zrange_length; [reflexivity|]. intros y. now rewrite map_length, zrange_length.
Qed.

(** The search ends, after expanding at most as many states as there are cells. *)
Lemma search_ends B si vfuel fuel (g : res Rng) : placed si -> reach / hp_res m <= IZR B -> Rabs (px goal) / hp_res m <= IZR B -> Rabs (py goal) / hp_res m <= IZR B ->
  (S (7 * Z.to_nat (2 * B + 1) * Z.to_nat (2 * B + 1)) < fuel)%nat ->
  exists r st, search_path hs_eqb x_ltb x_add (Some 0) (h_value heur) (h_succ vfuel) (h_solution goal) h_guard true fuel si g = Ok (r, st) /\
    (length (st_queried st) <= S (7 * Z.to_nat (2 * B + 1) * Z.to_nat (2 * B + 1)))%nat.
Proof.
  intros Hs Hb Gx Gy Hf. set (K := si :: map (fun c => HState NoMotion c (hs_pose si)) (box B)).
  assert (Lk : length K = S (7 * Z.to_nat (2 * B + 1) * Z.to_nat (2 * B + 1))) by (unfold K; cbn [length]; rewrite map_length, box_length; lia).
  assert (FR : finitely_reachable (h_succ vfuel) hs_eqb si K).
  { intros t [l Hl]. destruct (path_box B vfuel Hb Gx Gy l si t Hs Hl) as [->|I].
    - exists si. split; [now left|]. unfold hs_eqb. now apply ipose_eqb_eq.
    - exists (HState NoMotion (hs_cell t) (hs_pose si)). split; [right; apply in_map_iff; exists (hs_cell t); split; [reflexivity|now apply box_in]|]. unfold hs_eqb. now apply ipose_eqb_eq. }
  rewrite <- Lk in *. exact (search_terminates _ _ _ _ dflt_path _ _ _ _ _ hs_equiv x_swo _ _ eq_refl FR fuel g Hf).
Qed.
End Safe.
