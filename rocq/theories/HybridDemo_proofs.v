(** Hybrid A*: transition costs, and a search that succeeds. *)
From Coq Require Import Reals Lra.
From Verif Require Import Base RealBase Grid_model Coords_model Coords_proofs Pose_model Pose_spec Pose_proofs Straight_model Straight_spec Straight_proofs Bicycle_model Bicycle_spec Bicycle_proofs
  Composite_model Rs_model Rs_spec Rs_proofs RsSolver_proofs Validator_model Frontier_model Frontier_spec Frontier_proofs AStar_model AStar_spec AStar_proofs
  Hybrid_model Hybrid_spec Hybrid_proofs HybridCell_proofs HybridPath_proofs.
From Coq Require Import ZifyBool ZifyNat ZifyN.
Local Open Scope R_scope.

(** ** Costs *)
Definition with_switching (m : params) (c : R) : params :=
  Params (hp_wheelbase m) (hp_radius m) c (hp_reverse m) (hp_forward m) (hp_voronoi m) (hp_motions m) (hp_res m) (hp_ang m).

Lemma switching_ignored m f field vres validate c fuel s delta dir :
  steer_child (with_switching m c) f field vres validate fuel s delta dir = steer_child m f field vres validate fuel s delta dir.
Proof.
  assert (H : forall p, steer_cost (with_switching m c) f field vres fuel dir p = steer_cost m f field vres fuel dir p).
  { intros p. unfold steer_cost. destruct (dp_direction p 1); reflexivity. }
  unfold steer_child. cbv zeta. rewrite !H.
  assert (D : forall p, discretize (with_switching m c) p = discretize m p) by reflexivity. unfold state_of_path. rewrite !D.
  change (hp_model (with_switching m c)) with (hp_model m). change (hp_res (with_switching m c)) with (hp_res m).
  destruct (discretize m _) as [cl| | |]; [|reflexivity..]. cbn [bind]. destruct (validate _) as [[ok last]| | |]; [|reflexivity..]. cbn [bind]. destruct ok; [reflexivity|].
  now rewrite H.
Qed.

Section Voronoi.
Variable f : frames.
Variable field : cell -> res (option R).
Variable vres : R.
Notation vloop := (voronoi_loop f field vres).

(** The loop keeps the value of the last sample. *)
Lemma voronoi_last p k : forall j c v, vloop k p (INR j * (vres * sqrt 2)) c = Ok v -> 0 < vres -> INR j * (vres * sqrt 2) < p_length p ->
  exists i x cell, INR i * (vres * sqrt 2) < p_length p <= INR (S i) * (vres * sqrt 2) /\
  p_at p (INR i * (vres * sqrt 2) / p_length p) = Ok x /\ world_to_cell f (position x) false = Ok cell /\ field cell = Ok v.
Proof.
  induction k as [|k IH]; intros j c v E Hv Hj; cbn [voronoi_loop] in E.
  - destruct (Rltb_spec (INR j * (vres * sqrt 2)) (p_length p)); [discriminate|exfalso; lra].
  - destruct (Rltb_spec (INR j * (vres * sqrt 2)) (p_length p)) as [_|]; [|exfalso; lra].
    destruct (p_at p _) as [x| | |] eqn:Ex; try discriminate. cbn [bind] in E. destruct (world_to_cell f (position x) false) as [cl| | |] eqn:Ec; try discriminate. cbn [bind] in E.
    destruct (field cl) as [v'| | |] eqn:Ev; try discriminate. cbn [bind] in E.
    replace (INR j * (vres * sqrt 2) + vres * sqrt 2) with (INR (S j) * (vres * sqrt 2)) in E by (rewrite S_INR; ring).
    destruct (Rlt_dec (INR (S j) * (vres * sqrt 2)) (p_length p)) as [L|L]; [exact (IH _ _ _ E Hv L)|].
    exists j, x, cl. split; [lra|]. split; [exact Ex|]. split; [exact Ec|]. destruct k as [|k]; cbn [voronoi_loop] in E;
      (destruct (Rltb_spec (INR (S j) * (vres * sqrt 2)) (p_length p)); [exfalso; lra|]); congruence.
Qed.
End Voronoi.

(** The Voronoi cost of a path with a length only depends on the cell of its last sample. *)
Lemma voronoi_cost_last m f field vres p fuel v : voronoi_cost m f field vres fuel p = Ok v -> 0 < vres -> 0 < dp_length p ->
  exists i cell c, INR i * (vres * sqrt 2) < dp_length p <= INR (S i) * (vres * sqrt 2) /\
  world_to_cell f (position (dp_at p (INR i * (vres * sqrt 2) / dp_length p))) false = Ok cell /\ field cell = Ok (Some c) /\
  v = hp_voronoi m * (c * (vres * sqrt 2)).
Proof.
  unfold voronoi_cost. destruct (voronoi_loop _ _ _ _ _ _ _) as [o| | |] eqn:E; try discriminate. cbn [bind]. destruct o as [c|]; [|discriminate]. intros Ev Hv Hp.
  assert (E' : voronoi_loop f field vres fuel (as_path p) (INR 0 * (vres * sqrt 2)) (Some 0) = Ok (Some c)) by (cbn [INR]; now rewrite Rmult_0_l). apply voronoi_last in E' as (i & x & cl & Hi & Ex & Ec & Ef); auto; [|cbn [INR as_path p_length]; lra].
  exists i, cl, c. cbn [as_path p_length p_at] in *. assert (x = dp_at p (INR i * (vres * sqrt 2) / dp_length p)) as -> by congruence.
  split; [exact Hi|]. split; [exact Ec|]. split; [exact Ef|congruence].
Qed.

Lemma sqrt2_gt : 1 < sqrt 2.
Proof. rewrite <- sqrt_1 at 1. apply sqrt_lt_1_alt. lra. Qed.

(** A path whose samples can be read has a Voronoi cost, after finitely many samples. *)
Lemma voronoi_ends f field vres p : 0 < vres -> (forall r, 0 <= r <= 1 -> exists x cell c, p_at p r = Ok x /\ world_to_cell f (position x) false = Ok cell /\ field cell = Ok c) ->
  forall k j c, p_length p <= (INR j + INR k) * (vres * sqrt 2) -> exists v, voronoi_loop f field vres k p (INR j * (vres * sqrt 2)) c = Ok v.
Proof.
  intros Hv H. pose proof sqrt2_gt. assert (P : 0 < vres * sqrt 2) by nra. induction k as [|k IH]; intros j c Hk; cbn [voronoi_loop].
  - destruct (Rltb_spec (INR j * (vres * sqrt 2)) (p_length p)); [cbn in Hk; exfalso; lra|eauto].
  - destruct (Rltb_spec (INR j * (vres * sqrt 2)) (p_length p)) as [L|]; [|eauto]. pose proof (pos_INR j).
    assert (0 <= INR j * (vres * sqrt 2)) by nra. destruct (H (INR j * (vres * sqrt 2) / p_length p)) as (x & cl & v & -> & E1 & E2).
    { split; [apply Rmult_le_pos; [auto|left; apply Rinv_0_lt_compat; lra]|]. apply (Rmult_le_reg_r (p_length p)); [lra|]. unfold Rdiv. rewrite Rmult_assoc, Rinv_l; lra. }
    cbn [bind]. rewrite E1. cbn [bind]. rewrite E2. cbn [bind]. replace (INR j * (vres * sqrt 2) + vres * sqrt 2) with (INR (S j) * (vres * sqrt 2)) by (rewrite S_INR; ring).
    apply IH. rewrite !S_INR in *. lra.
Qed.

(** ** A search that succeeds *)
Lemma interp_range r d l : forall len p, - PI <= pth p <= PI -> - PI <= pth (interp_loop r d l len p) <= PI.
Proof.
  assert (M : forall p m len, - PI <= pth (rs_move r p m len) <= PI).
  { intros p m len. unfold rs_move, rs_straight, rs_turn. destruct (m_steer m); cbv zeta; cbn [mk_pose pth]; try apply wrap_range; unfold pose_add, mk_pose; cbn [pth]; apply wrap_range. }
  induction l as [|m l IH]; intros len p H; cbn [interp_loop]; auto. destruct (Reqb _ _); auto. cbv zeta. destruct (Rleb _ _); auto.
Qed.

Definition demo_params : params := Params 1 1 0 1 1 0 0 1 1.
Definition demo_frames : frames := Frames 1 10 10 (0, 0) (0, 0) (0, 0).
Definition demo_init : pose := Pose 0 0 0.
Definition demo_goal : pose := Pose 1 0 0.
(** Accepts the paths that end above one. *)
Definition demo_validate (p : path) : res (bool * R) := do x <- p_at p 1; Ok (if Reqb (px x) 1 then (true, 1) else (false, 0)).
Definition demo_draw (u : unit) : R * unit := (0, tt).

Lemma identical_same p q : same_pose p q -> - PI <= pth p <= PI -> - PI < pth q < PI -> identical_poses p q = true.
Proof.
  intros (X & Y & T) Rp Rq. assert (pth q = pth p) as E by (apply same_angle_unique; auto; now apply same_angle_sym).
  unfold identical_poses, position, psub, pnorm. cbn [fst snd]. rewrite X, Y, E. unfold Rminus. rewrite !Rplus_opp_r, Rabs_R0. replace (0 * 0 + 0 * 0) with 0 by ring. rewrite sqrt_0.
  pose proof PI_bounds. destruct (Rltb_spec 0 (1 / 1000)); [|exfalso; lra]. destruct (Rltb_spec 0 (1 / 1000 * PI / 180)); [reflexivity|exfalso; lra].
Qed.

Lemma cast_near n x : is_int n -> (0 <= x /\ IZR n <= x < IZR n + 1) \/ (x < 0 /\ IZR n - 1 < x <= IZR n) -> cast_int x = Ok n.
Proof. intros Hn [[H1 H2]|[H1 H2]]; apply cast_int_ok; split; auto; symmetry; [now apply trunc_down|now apply trunc_up]. Qed.

Lemma demo_straight d dir : constant_steer (hp_model demo_params) demo_init 0 d dir = Pose (signed dir d) 0 0.
Proof.
  assert (B : beta (hp_model demo_params) 0 = 0) by (unfold beta; cbn [hp_model demo_params rear_to_center]; unfold Rdiv; rewrite !Rmult_0_l; apply atan_0).
  assert (D : dtheta_ddist (hp_model demo_params) 0 = 0) by (unfold dtheta_ddist; rewrite tan_0; unfold Rdiv; ring).
  rewrite steer_signed. unfold constant_steer. rewrite B, D, Rabs_R0, cos_0. cbn [demo_init px py pth]. destruct (Rltb_spec (1 / 1000000000) 0); [exfalso; lra|].
  rewrite cos_0, sin_0. f_equal; field.
Qed.
Lemma demo_cell p x : px p = x -> py p = 0 -> - PI <= pth p <= PI -> Rabs (pth p) < 1 -> - 2 < x < 2 -> exists n, discretize demo_params p = Ok (IPose n 0 0) /\ n = Rtrunc x.
Proof.
  intros X Y T0 T1 Hx. unfold discretize. cbn [demo_params hp_res hp_ang]. rewrite X, Y, wrap_keep by auto. unfold Rdiv. rewrite Rinv_1, !Rmult_1_r.
  assert (I : is_int (Rtrunc x)).
  { destruct (Rtrunc_spec x) as [(A & B & C)|(A & B & C)]; [assert (IZR (Rtrunc x) < 2) as L by lra|assert (-2 < IZR (Rtrunc x)) as L by lra]; apply lt_IZR in L; unfold is_int, int_min, int_max; lia. }
  exists (Rtrunc x). split; [|reflexivity]. rewrite (proj2 (cast_int_ok x (Rtrunc x)) (conj eq_refl I)). cbn [bind]. rewrite cast_0. cbn [bind].
  apply Rabs_def2 in T1. rewrite (cast_near 0 (pth p)); [reflexivity|unfold is_int, int_min, int_max; lia|]. destruct (Rle_dec 0 (pth p)); [left|right]; lra.
Qed.

Lemma demo_no_steer field vres fuel s dir : hs_pose s = demo_init -> hs_cell s = IPose 0 0 0 -> dir = Forward \/ dir = Backward ->
  steer_child demo_params demo_frames field vres demo_validate fuel s 0 dir = Ok None.
Proof.
  intros Hp Hc Hd. unfold steer_child. rewrite Hp. cbn [demo_params hp_res]. set (c := c_new _ _ _ _ _). pose proof PI_bounds.
  assert (F : c_final c = Pose (signed dir (1 * (3 / 2))) 0 0) by (unfold c, c_new; cbn [c_final]; rewrite Rmult_1_r; apply demo_straight).
  unfold state_of_path. cbn [dp_final]. rewrite F. destruct (demo_cell (Pose (signed dir (1 * (3 / 2))) 0 0) (signed dir (1 * (3 / 2)))) as (n & -> & _); try reflexivity; cbn [pth]; rewrite ?Rabs_R0; try lra.
  { destruct Hd as [->| ->]; cbn; lra. }
  cbn [bind]. unfold demo_validate. cbn [as_path p_at dp_at bind]. rewrite <- c_built_final by constructor. rewrite F. cbn [px].
  destruct (Reqb_spec (signed dir (1 * (3 / 2))) 1) as [E|_]; [exfalso; destruct Hd as [->| ->]; cbn in E; lra|]. cbn [bind].
  change (dp_final (dp_truncate (Steered c) 0)) with (c_at c 0). rewrite c_at_0. change (c_init c) with demo_init.
  destruct (demo_cell demo_init 0) as (n' & -> & En); try reflexivity; cbn [demo_init pth]; rewrite ?Rabs_R0; try lra. cbn [bind].
  assert (n' = 0)%Z as -> by (rewrite En; apply trunc_down; lra). unfold hs_eqb. cbn [hs_cell]. rewrite Hc. reflexivity.
Qed.

Definition demo_field (c : cell) : res (option R) := Ok (Some 0).
Definition demo_heur (p : pose) : res xreal := Ok (Some 0).

Lemma demo_neighbors : exists vres q c, 0 < vres /\ neighbors demo_params demo_frames demo_field vres demo_validate demo_heur unit demo_draw demo_goal 1 tt (HState NoMotion (IPose 0 0 0) demo_init)
  = Ok ([(HState (dp_direction (Connected q) 1) (IPose 1 0 0) (q_final q), Connected q, Some c)], tt) /\ identical_poses (q_final q) demo_goal = true.
Proof.
  destruct (optimal_path_spec demo_init demo_goal 1 1 1 0 ltac:(lra)) as (w & g & c & Eg & _ & O & _ & Hq & Ec & _). destruct (offered_goal _ _ _ _ _ Rlt_0_1 O) as (l & Hg & _).
  set (q := rs_new demo_init g 1) in *. pose proof PI_bounds. destruct (rs_ends demo_init g l 1 Hg ltac:(lra)) as (H0 & H1 & _ & _). fold q in H0, H1.
  assert (Rg : - PI <= pth (q_final q) <= PI).
  { unfold q, rs_new, rs_interp. cbn [q_final]. destruct (Reqb _ _); [cbn; lra|]. apply interp_range. cbn. lra. }
  assert (T0 : pth (q_final q) = 0) by (symmetry; apply same_angle_unique; [apply same_angle_sym, Hq|cbn; lra|exact Rg]).
  assert (L : 0 < q_length q).
  { pose proof (rs_at_distance demo_init g l 1 1 0 Hg ltac:(lra) ltac:(lra) ltac:(lra)) as D. fold q in D. rewrite H1 in D. destruct H0 as (X0 & _). destruct Hq as (X1 & _).
    destruct (HybridPath_proofs.connected_sane demo_init g l 1 Hg ltac:(lra)) as [L _ _ _]. fold q in L. cbn [dp_length] in L. destruct L as [L|L]; auto. exfalso. rewrite <- L, Rmult_0_r in D.
    assert (Rabs (px (rs_at q 0) - px (q_final q)) <= distance (position (q_final q)) (position (rs_at q 0))) as K.
    { unfold distance, position. cbn [fst snd]. rewrite <- sqrt_Rsqr_abs. apply sqrt_le_1_alt. unfold Rsqr. pose proof (Rle_0_sqr (py (rs_at q 0) - py (q_final q))) as K. unfold Rsqr in K. lra. }
    rewrite X0, X1 in K. cbn [demo_init demo_goal px] in K. rewrite Rabs_left in K by lra. lra. }
  exists (q_length q), q. eexists. split; [exact L|]. split; [|apply identical_same; [exact Hq|exact Rg|cbn; lra]].
  unfold neighbors. change (deltas demo_params) with [0]. cbn [steer_children]. rewrite !demo_no_steer by auto. cbn [bind opt_list app hs_pose demo_heur]. unfold try_connection.
  destruct (Rltb_spec 0 10); [|exfalso; lra]. unfold rs_child. cbn [hs_pose]. change (hp_radius demo_params) with 1. change (hp_reverse demo_params) with 1. change (hp_forward demo_params) with 1. change (hp_switching demo_params) with 0.
  rewrite Eg. cbn [bind]. fold q. unfold demo_validate. cbn [as_path p_at dp_at bind]. rewrite H1. pose proof Hq as (X1 & Y1 & _). rewrite X1. cbn [demo_goal px]. destruct (Reqb_spec 1 1); [|contradiction]. cbn [bind negb].
  unfold state_of_path. cbn [dp_final]. destruct (demo_cell (q_final q) 1) as (n & -> & ->); auto; [rewrite T0, Rabs_R0; lra|lra|]. cbn [bind]. assert (Rtrunc 1 = 1%Z) as -> by (apply (Rtrunc_IZR 1)).
  unfold voronoi_cost. cbn [voronoi_loop as_path p_length p_at dp_length dp_at bind]. destruct (Rltb_spec 0 (q_length q)); [|exfalso; lra]. replace (0 / q_length q) with 0 by (unfold Rdiv; ring).
  unfold world_to_cell, grid_to_cell. destruct H0 as (X0 & Y0 & _). cbn [position fst snd demo_frames fr_world_grid fr_res]. rewrite X0, Y0. cbn [demo_init px py].
  replace ((0 - 0) / 1) with 0 by field. rewrite cast_0. cbn [bind negb demo_field]. pose proof sqrt2_gt. destruct (Rltb_spec (0 + q_length q * sqrt 2) (q_length q)); [exfalso; nra|]. cbn [bind].
  unfold x_add. rewrite Ec. reflexivity.
Qed.

Lemma demo_search : exists vres n st q, 0 < vres /\
  graph_search demo_params demo_frames demo_field vres demo_validate demo_heur unit demo_draw demo_goal 1 2 demo_init tt = Ok (Some n, st) /\
  search_motions (Some n) = Ok [Connected q].
Proof.
  destruct demo_neighbors as (vres & q & c & Hv & N & I). exists vres. pose proof PI_bounds.
  unfold graph_search, state_of_pose. destruct (demo_cell demo_init 0) as (n0 & -> & E0); try reflexivity; cbn [demo_init pth]; rewrite ?Rabs_R0; try lra.
  assert (n0 = 0)%Z as -> by (rewrite E0; apply trunc_down; lra). destruct (demo_cell demo_goal 1) as (n1 & -> & _); try reflexivity; cbn [demo_goal pth]; rewrite ?Rabs_R0; try lra.
  cbn [bind]. unfold search_path. set (r := HState NoMotion (IPose 0 0 0) (Pose 0 0 0)). set (t := HState (dp_direction (Connected q) 1) (IPose 1 0 0) (q_final q)) in *.
  change (init_search hs_eqb x_ltb (Some 0) r (Ok tt)) with (Ok (Search (Frontier [Root r] [Root r]) [@Root hstate drive_path xreal r] (Ok tt) [])). cbn [bind].
  set (hv := h_value _). set (su := h_succ _ _ _ _ _ _ _ _ _ _). set (so := h_solution _). set (gu := h_guard).
  assert (S0 : so r = false).
  { unfold so, h_solution, identical_poses, r. cbn [hs_pose]. unfold position, demo_goal, psub, pnorm. cbn [fst snd px py pth]. match goal with |- context [sqrt ?x] => replace x with 1 by ring end. rewrite sqrt_1. destruct (Rltb_spec 1 (1 / 1000)); [exfalso; lra|reflexivity]. }
  assert (S1 : so t = true) by exact I.
  assert (Es : su (Ok tt) r = ([(t, Connected q, Some c)], Ok tt)).
  { unfold su, h_succ. unfold r. fold demo_init. rewrite N. reflexivity. }
  clearbody so su hv gu. eexists. eexists. exists q. split; [exact Hv|]. cbn -[x_add demo_init]. unfold r, demo_init in S0, Es. unfold demo_init. rewrite S0. unfold expand. cbn [st_prop n_state]. rewrite Es.
  unfold t in S1 |- *. cbn -[x_add dp_direction]. rewrite S1. cbn [bind]. split; reflexivity.
Qed.
