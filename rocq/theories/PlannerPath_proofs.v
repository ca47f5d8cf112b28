(** The path returned by the planner. *)
From Coq Require Import Reals Lra.
From Verif Require Import Base RealBase Grid_model Grid_spec Coords_model Pose_model Pose_spec Pose_proofs Straight_model Straight_spec Straight_proofs ObstacleMap_model
  Shape_model Shape_spec Gvd_model Gvd_api_proofs PathCost_model Validator_model Validator_spec Validator_proofs
  World_model World_spec World_proofs WorldClear_proofs WorldPlan_proofs ObstHeur_model NonHol_model
  Smoother_model Smoother_spec Smoother_proofs SmootherGrad_model SmootherGrad_proofs
  AStar_model AStar_spec Composite_model Composite_spec Hybrid_model Hybrid_spec Hybrid_proofs HybridSample_proofs HybridPath_proofs HybridSafe_proofs HybridMap_proofs
  Planner_model Planner_spec Planner_proofs.
From Verif Require Gvd_spec Smoother_props.
From Coq Require Import ZifyBool ZifyNat ZifyN.
Local Open Scope R_scope.

(** * A valid state keeps its distance from the outline of the obstacles *)
Lemma valid_state_path f clearance lb ub minSafe e y : 0 < e -> is_state_valid f clearance lb ub minSafe y = Ok true ->
  is_path_valid f clearance lb ub minSafe e 1 (Path y e (fun _ => Ok y)) = Ok (true, 1).
Proof.
  intros He Ev. unfold is_path_valid. cbn [p_length p_init]. destruct (Reqb_spec e 0); [exfalso; lra|].
  cbn [validate_loop p_length p_at bind]. destruct (Rltb_spec 0 e); [|exfalso; lra]. rewrite Ev. cbn [bind negb].
  unfold is_state_valid in Ev. unfold step_length. destruct (world_to_cell f (position y) true) as [c| | |]; try discriminate. cbn [bind] in *.
  destruct (_ || _)%bool; [discriminate|]. destruct (clearance c) as [d| | |]; try discriminate. cbn [bind].
  match goal with |- (if Rltb (0 + Rmax ?a e) e then _ else _) = _ => pose proof (Rmax_r a e); destruct (Rltb_spec (0 + Rmax a e) e); [exfalso; lra|reflexivity] end.
Qed.

Lemma still_unit_speed y e : unit_speed (Path y e (fun _ => Ok y)).
Proof.
  unfold unit_speed, state_at. cbn [p_at]. intros * _ _ E1 E2. assert (y = x) as <- by congruence. assert (y = y0) as <- by congruence.
  rewrite distance_self. apply Rabs_pos.
Qed.

(** * The sampled path *)
Lemma sample_loop_fuel fuel total step : forall len its rs cs r, 0 < step -> sample_loop fuel total step len its rs cs = Ok r -> total < len + INR fuel * step.
Proof.
  induction fuel as [|fuel IH]; intros len its rs cs r Hs E; cbn [sample_loop] in E.
  - destruct (Rleb_spec len total); [discriminate|]. cbn [INR]. lra.
  - rewrite S_INR. destruct (Rleb_spec len total).
    + destruct its as [|c its]; [discriminate|]. destruct (_ && _)%bool; apply IH in E; auto; lra.
    + pose proof (pos_INR fuel). nra.
Qed.

Lemma leads_distance l : Forall sane l -> forall p q, leads p l q -> distance (position p) (position q) <= dtotal l.
Proof.
  induction 1 as [|x l Hx F IH]; intros p q HL; cbn [leads] in HL.
  - subst. rewrite distance_self. cbn. lra.
  - destruct HL as [(X & Y & _) HL]. specialize (IH _ _ HL). pose proof (sn_speed x Hx 0 1 ltac:(lra) ltac:(lra)) as S1.
    replace (position p) with (position (dp_at x 0)) by (unfold position; now rewrite X, Y).
    pose proof (distance_triangle (position (dp_at x 0)) (position (dp_at x 1)) (position q)). cbn [Composite_spec.total].
    replace (Rabs (0 - 1)) with 1 in S1 by (rewrite Rabs_left; lra). lra.
Qed.

Lemma way_end l : Forall sane l -> forall init q d x, leads init l q -> on_way l d x -> distance (position x) (position q) <= dtotal l - d.
Proof.
  intros F init q d x HL (p & s & (before & after & -> & Hs & <-) & ->). revert F init HL. induction before as [|y before IH]; intros F init HL.
  - cbn [app leads] in *. destruct HL as [_ HL]. pose proof (Forall_inv F) as P. apply Forall_inv_tail in F. pose proof (leads_distance _ F _ _ HL) as D.
    pose proof (sn_speed p P s 1 Hs ltac:(lra)) as S1. pose proof (distance_triangle (position (dp_at p s)) (position (dp_at p 1)) (position q)).
    rewrite Rabs_left1 in S1 by lra. cbn [Composite_spec.total]. lra.
  - cbn [app leads] in HL. destruct HL as [_ HL]. apply Forall_inv_tail in F. specialize (IH F _ HL). cbn [app Composite_spec.total] in *. lra.
Qed.

Lemma sampled_ends fuel step l init q poses marks : Forall sane l -> leads init l q -> 0 < step -> l <> [] ->
  sampled_path fuel step (dp_composite l) = Ok (poses, marks) ->
  (exists x, nth_error poses 0 = Some x /\ same_pose x init) /\
  (exists y, nth_error poses (length poses - 1) = Some y /\ distance (position y) (position q) < 3 / 2 * step) /\
  forall y, In y poses -> exists p a, In p l /\ 0 <= a <= 1 /\ y = dp_at p a.
Proof.
  intros F HL Hs Hne E. destruct (composite_facts l F) as (L & C & At). pose proof (total_nonneg l F) as P.
  destruct (Req_dec (dtotal l) 0) as [Z|N].
  - unfold sampled_path in E. rewrite L, Z in E. set (cusps := k_cusps _ _ _ _ _ _) in *.
    destruct (cusp_set_head cusps C) as (r & Ec & _). unfold sample in E. rewrite Ec in E. destruct fuel as [|fuel]; cbn [sample_loop] in E; (destruct (Rleb_spec 0 0); [|exfalso; lra]); [discriminate|].
    rewrite Rmult_0_l in E. destruct (Rleb_spec (0 - step / 2) 0); [|exfalso; lra]. destruct (Rltb_spec 0 (0 + step / 2)); [|exfalso; lra]. cbn [andb app length] in E.
    assert (E0 : sample_loop fuel 0 step (0 + step) r [0] [0%nat] = Ok ([0], [0%nat])).
    { destruct fuel; cbn [sample_loop]; destruct (Rleb_spec (0 + step) 0); try reflexivity; exfalso; lra. }
    rewrite E0 in E. cbn [bind interpolate_all] in E. destruct (At Hne 0 ltac:(lra)) as (x & Ex & Hx). rewrite Ex in E. cbn [bind] in E. injection E as <- _.
    rewrite Rmult_0_l in Hx. split; [|split].
    + exists x. split; [reflexivity|]. eapply start_pose; eauto.
    + exists x. split; [reflexivity|]. rewrite <- Z in Hx. destruct (end_pose l F init q x HL Hx) as (X & Y & _).
      replace (position q) with (position x) by (unfold position; now rewrite X, Y). rewrite distance_self. lra.
    + intros y [<-|[]]. eapply on_way_motion; eauto.
  - assert (Hf : dtotal l < INR fuel * step).
    { unfold sampled_path in E. rewrite L in E. destruct (sample fuel _ _ _) as [rs| | |] eqn:Es; try discriminate. unfold sample in Es. apply sample_loop_fuel in Es; auto. lra. }
    destruct (sampled_spec fuel step l init q F HL ltac:(lra) Hs Hf) as (poses' & marks' & E' & H0 & (ds & Fd & Hd) & B). assert (poses' = poses) as -> by congruence.
    split; [exact H0|]. split.
    + destruct H0 as (x0 & H0 & _). assert (Hp : (0 < length poses)%nat) by (destruct poses; [discriminate|cbn; lia]).
      destruct (nth_error poses (length poses - 1)) as [y|] eqn:Ey; [|exfalso; apply nth_error_None in Ey; lia]. exists y. split; [reflexivity|].
      destruct (Forall2_nth_r _ _ _ Fd _ _ Ey) as (d & Ed & Hy). destruct (Hd _ _ Ed) as [Hw Hr].
      assert (Hl : dtotal l - d < 3 / 2 * step).
      { rewrite minus_INR in Hw by lia. change (INR 1) with 1 in Hw. lra. }
      apply Rle_lt_trans with (2 := Hl). exact (way_end l F init q d y HL Hy).
    + intros y Iy. apply In_nth_error in Iy as [i Ei]. destruct (Forall2_nth_r _ _ _ Fd _ _ Ei) as (d & _ & Hy). eapply on_way_motion; eauto.
Qed.

(** * Smoothing *)
Lemma move_zero p x : move p x (0, 0) = x.
Proof. unfold move, psub, scale. cbn [fst snd]. destruct x as [a b]. cbn [fst snd]. f_equal; ring.
Qed.

Lemma join_split p : join_pose (split_pose p) = p.
Proof. now destruct p. Qed.

Lemma smooth_path_spec fuel s va f clearance g poses cusps ok out : smooth_path fuel s va f clearance g poses cusps = Ok (ok, out) ->
  length out = length poses /\ nth_error out 0 = nth_error poses 0 /\ nth_error out (length poses - 1) = nth_error poses (length poses - 1) /\
  (forall k, In k cusps -> nth_error out k = nth_error poses k) /\ map pth out = map pth poses /\
  (ok = true -> forall x, In x out -> is_state_valid f clearance (va_lower va) (va_upper va) (va_safe va) x = Ok true).
Proof.
  unfold smooth_path, SmootherGrad_model.run. intros E.
  match type of E with bind ?x _ = _ => destruct x as [[st o]| | |] eqn:Es end; try discriminate. cbn [bind] in E.
  assert (ok = (0 <=? code st)%Z) as -> by congruence. assert (out = map join_pose o) as -> by congruence. clear E.
  apply Smoother_props.C31_smoothing_keeps in Es; [|intros x; apply move_zero]. destruct Es as (L & H & N0 & N1 & Nc & V). rewrite map_length in L, N1.
  assert (J : forall k, nth_error o k = nth_error (map split_pose poses) k -> nth_error (map join_pose o) k = nth_error poses k).
  { intros k Hk. rewrite nth_error_map, Hk, nth_error_map. destruct (nth_error poses k); [|reflexivity]. cbn [option_map]. now rewrite join_split. }
  split; [now rewrite map_length|]. split; [now apply J|]. split; [now apply J|]. split; [|split].
  - intros k Ik. apply J, Nc. apply existsb_exists. exists k. split; auto. apply Z.eqb_refl.
  - rewrite map_map in *. change (map snd o = map pth poses) in H. rewrite <- H. now apply map_ext.
  - intros Hok x Ix. apply in_map_iff in Ix as (z & <- & Iz). apply V; auto. lia.
Qed.

(** * The whole planner *)
Lemma used_before b ops : forall f s m, world_used f s m (ops ++ b) -> world_used f s m ops.
Proof. induction ops as [|x ops IH]; intros f s m H; [exact I|]. destruct H as [A B]. split; [exact A|]. now apply IH in B. Qed.

Section Planned.
Variables top topv : nat -> list (cell * Z) -> nat.
Hypothesis Ht : Gvd_spec.priority top.
Hypothesis Htv : Gvd_spec.priority topv.
Variable fuel : nat.
Variable Rng : Type.
Variable draw : Rng -> R * Rng.
Notation sy_run := (sy_run top topv fuel Rng draw).
Notation sy_search := (sy_search top topv fuel Rng draw).

(** A search in a map whose last call was an update. *)
Lemma planned_with resolution junk m v s s' ops last : 0 < resolution -> 0 < hp_radius m -> 0 < hp_res m ->
  let F := world_frames (fr_new resolution junk) ops in
  pl_ready (sy_planner s) = true -> (exists d h o, pl_parts (sy_planner s) = Some (Parts v d h o)) -> pl_params (sy_planner s) = m -> wd_frames (sy_world s) = F ->
  sy_search s = Ok (s', true) -> wd_run top topv fuel (wd_new resolution junk) (ops ++ [last]) = Ok (sy_world s') -> updates last ->
  world_used (fr_new resolution junk) false false (ops ++ [last]) ->
  exists va, nth_error (sy_validators s) v = Some va /\
  let p := sy_planner s in let path := pl_path (sy_planner s') in
  (0 < pl_step p -> 0 < va_step va ->
   (exists x, nth_error path 0 = Some x /\ same_pose x (pl_init p)) /\
   (exists y, nth_error path (length path - 1) = Some y /\ distance (position y) (position (pl_goal p)) < 3 / 2 * pl_step p + 1 / 1000) /\
   forall pre o x post, ops = pre ++ WAdd o x :: post -> ~ In o (world_registered [] pre) -> kept F o x post ->
   forall y q, In y path -> on_obstacle x q -> off_border F q -> margin (va_safe va) (va_step va) resolution F <= distance (position y) q).
Proof.
  intros Hres Hrad Hpres F Ar (d0 & h0 & o0 & Ap) Em EF Es Wf Hlast W.
  destruct (search_inv _ _ _ _ _ _ _ _ Es Ar) as (v' & d & h & o & va & start & o' & w' & d' & g & gm & sol & st & rng' & path & E1 & E2 & E3 & E4 & E5 & E6 & E7 & E8 & E9 & E10).
  rewrite Ap in E1. injection E1 as <- <- <- <-. exists va. split; [unfold vget in E2; destruct (nth_error _ _); congruence|].
  intros p path' Hstep Hmin. assert (path' = path) as -> by (unfold path'; rewrite E10; reflexivity).
  rewrite E10 in Wf. cbn [sy_world] in Wf.
  assert (ER : fr_res F = resolution) by (unfold F; rewrite frames_res; reflexivity).
  fold p in E3, E4, E7, E9. rewrite EF, ER in *.
  assert (Em' : pl_params p = m) by exact Em. rewrite Em' in *. clear Em Em'.
  unfold hybrid_result in E9. cbn [negb bind] in E9. destruct sol as [n|]; [|discriminate].
  assert (Hval : forall q r, 0 <= p_length q -> p_at q 0 = Ok (p_init q) ->
    is_path_valid F (map_clearance (g_obs gm) resolution) (va_lower va) (va_upper va) (va_safe va) (va_step va) fuel q = Ok (false, r) -> 0 <= r <= 1).
  { intros q r. apply validate_ratio; auto. }
  destruct (search_placed _ _ _ _ _ _ _ _ _ _ _ _ _ _ _ _ _ _ _ _ E7) as (s0 & lp & Ei & Hs0 & Hpath & Eact).
  pose proof (WorldPlan_proofs.path_sane _ _ _ _ _ _ _ _ _ _ _ _ _ _ _ Hrad Hpres Hmin lp s0 _ Hs0 Hpath) as Fs.
  destruct (search_motions_spec _ _ _ _ _ _ _ _ _ Hrad _ _ _ _ _ _ E7) as (ms & qe & Ems & Hlead & Harr & _).
  assert (path_actions lp = ms) as Elp by congruence. rewrite Elp in Fs. clear Eact Elp Hpath.
  rewrite Ems in E9. cbn [bind] in E9. destruct (sampled_path fuel (pl_step p) (dp_composite ms)) as [[poses marks]| | |] eqn:Esp; try discriminate. cbn [bind] in E9.
  match type of E9 with bind ?x _ = _ => destruct x as [[ok sm]| | |] eqn:Esm end; try discriminate. cbn [bind] in E9.
  assert (path = if ok then sm else poses) as -> by congruence. clear E9.
  assert (Hne : ms <> []).
  { intros ->. destruct fuel as [|fuel']; [|rewrite empty_throws in Esp by auto; discriminate].
    unfold sampled_path in Esp. cbn [dp_composite fold_left k_new k_length] in Esp. unfold sample in Esp.
    destruct (sample_loop 0 _ _ _ _ _ _) as [r| | |] eqn:Er; try discriminate. apply sample_loop_fuel in Er; auto. cbn in Er. lra. }
  destruct (sampled_ends fuel (pl_step p) ms (pl_init p) qe poses marks Fs Hlead Hstep Hne Esp) as (H0 & (y1 & H1 & H1d) & Hway).
  destruct (smooth_path_spec _ _ _ _ _ _ _ _ _ _ Esm) as (Sl & S0 & S1 & _ & _ & Sv).
  split; [|split].
  - destruct ok; [rewrite S0|]; exact H0.
  - exists y1. split; [destruct ok; [rewrite Sl, S1|]; exact H1|]. destruct Harr as [Hq _].
    pose proof (distance_triangle (position y1) (position qe) (position (pl_goal p))). lra.
  - intros pre ob x post Eh Hn Hk y q Iy Hq Ho.
    rewrite Eh in W, Wf. unfold F in Hk. rewrite Eh in Hk.
    assert (EFh : F = world_frames (fr_new resolution junk) (pre ++ WAdd ob x :: post)) by (unfold F; now rewrite Eh).
    destruct ok.
    + destruct (validated_outline top topv resolution junk pre ob x post last Ht Htv Hres W Hlast Hn Hk) as (k & w2 & g2 & K & Kg & _ & Kv).
      assert (w2 = w') as -> by (specialize (K (Nat.max k fuel) ltac:(lia)); rewrite (wd_run_more _ _ fuel) with (r := w') in K; [congruence|lia|exact Wf]).
      assert (g2 = gm) as -> by congruence. rewrite <- EFh in Kv. specialize (Sv eq_refl y Iy). pose proof (valid_state_path _ _ _ _ _ _ _ Hmin Sv) as Vp.
      refine (Kv _ _ _ _ _ _ _ Hmin _ (still_unit_speed y (va_step va)) Vp q 0 y Hq Ho _ _); cbn [p_length]; [lra|lra|reflexivity].
    + destruct (planned_outline top topv resolution junk pre ob x post last Ht Htv Hres W Hlast Hn Hk) as (k & w2 & g2 & K & Kg & _ & Kp).
      assert (w2 = w') as -> by (specialize (K (Nat.max k fuel) ltac:(lia)); rewrite (wd_run_more _ _ fuel) with (r := w') in K; [congruence|lia|exact Wf]).
      assert (g2 = gm) as -> by congruence. rewrite <- EFh in Kp.
      destruct (Kp _ _ _ _ _ _ _ _ _ _ _ _ _ _ _ _ _ _ Hrad Hpres Hmin E7) as (ms' & Ems' & Kc & _). assert (ms' = ms) as -> by congruence.
      destruct (Hway y Iy) as (pp & r & Ip & Hr & ->). exact (Kc q pp r Hq Ho Ip Hr).
Qed.

Lemma planned_path resolution junk m rng a v b s s' : 0 < resolution -> 0 < hp_radius m -> 0 < hp_res m ->
  let l := a ++ PInitialize (Some v) :: b in
  let F := world_frames (fr_new resolution junk) (history l) in
  undisturbed b -> sy_run (sy_new Rng resolution junk m rng) l = Ok s -> sy_search s = Ok (s', true) ->
  world_used (fr_new resolution junk) false false (history l ++ [WGvdUpdate]) ->
  exists va, nth_error (sy_validators s) v = Some va /\
  let p := sy_planner s in let path := pl_path (sy_planner s') in
  (0 < pl_step p -> 0 < va_step va ->
   (exists x, nth_error path 0 = Some x /\ same_pose x (pl_init p)) /\
   (exists y, nth_error path (length path - 1) = Some y /\ distance (position y) (position (pl_goal p)) < 3 / 2 * pl_step p + 1 / 1000) /\
   forall pre o x post, history l = pre ++ WAdd o x :: post -> ~ In o (world_registered [] pre) -> kept F o x post ->
   forall y q, In y path -> on_obstacle x q -> off_border F q -> margin (va_safe va) (va_step va) resolution F <= distance (position y) q).
Proof.
  intros Hres Hrad Hpres l F U E Es W.
  assert (A : attached Rng v s).
  { unfold l in E. rewrite sy_run_app in E. destruct (sy_run _ a) as [s1| | |]; try discriminate. cbn [bind Planner_model.sy_run] in E.
    destruct (sy_step _ _ _ _ _ s1 _) as [s2| | |] eqn:E2; try discriminate. cbn [bind] in E. apply initialize_attaches in E2. eapply run_attached; eauto. }
  pose proof A as [Ar (h0 & o0 & Ap)].
  destruct (run_calls _ _ _ _ _ l _ _ _ _ (new_flags Rng resolution junk m rng) E) as [Wr _]. change (sy_world (sy_new Rng resolution junk m rng)) with (wd_new resolution junk) in Wr. fold (history l) in Wr.
  pose proof (run_params _ _ _ _ _ _ _ _ E) as Em. cbn in Em.
  destruct (search_inv _ _ _ _ _ _ _ _ Es Ar) as (v' & d & h & o & va & start & o' & w' & d' & g & gm & sol & st & rng' & path & E1 & _ & _ & _ & E5 & _ & _ & _ & _ & E10).
  rewrite Ap in E1. injection E1 as <- <- <- <-.
  cbn [update_diagram] in E5. destruct (wd_step top topv fuel (sy_world s) WGvdUpdate) as [w1| | |] eqn:Ew; try discriminate. cbn [bind] in E5. destruct (wd_dist w1) as [g1|] eqn:Eg1; try discriminate.
  assert (w1 = w') as -> by congruence. assert (Ew' : sy_world s' = w') by (rewrite E10; reflexivity).
  assert (Wf : wd_run top topv fuel (wd_new resolution junk) (history l ++ [WGvdUpdate]) = Ok w') by (rewrite wd_run_app, Wr; cbn [bind wd_run]; rewrite Ew; reflexivity).
  apply (planned_with resolution junk m v s s' (history l) WGvdUpdate); eauto; [|now rewrite Ew'|now right]. fold F.
  destruct (world_updated top topv Ht Htv resolution junk (history l) WGvdUpdate W (or_intror eq_refl)) as (_ & _ & k & w0 & _ & K & _ & K2 & _).
  assert (w0 = w') as -> by (specialize (K (Nat.max k fuel) ltac:(lia)); rewrite (wd_run_more _ _ fuel) with (r := w') in K; [congruence|lia|exact Wf]).
  change (wd_frames w' = F) in K2. rewrite <- K2. cbn [wd_step] in Ew. unfold wd_call in Ew. destruct (wd_dist (sy_world s)); try discriminate. destruct (g_run _ _ _ _ _); try discriminate. cbn [bind] in Ew. now injection Ew as <-.
Qed.

(** The planner was initialized with the validator [v]; its diagram may be that of a former size of the map. *)
Lemma step_validated v s x s' : pl_ready (sy_planner s) = true /\ (exists d h o, pl_parts (sy_planner s) = Some (Parts v d h o)) ->
  (forall v', x <> PInitialize v') -> sy_step top topv fuel Rng draw s x = Ok s' ->
  pl_ready (sy_planner s') = true /\ (exists d h o, pl_parts (sy_planner s') = Some (Parts v d h o)).
Proof.
  intros [Hr (d & h & o & Hp)] N E. destruct x as [x|lower upper|u r|u r|u|q|q|r|x|]; cbn [Planner_model.sy_step] in E.
  - destruct (wd_step _ _ _ _ _); try discriminate. cbn [bind] in E. injection E as <-. cbn [sy_planner]. destruct x; eauto. unfold detach. rewrite Hp. destruct d; [|eauto]. destruct (wd_dist _); cbn; eauto 10.
  - unfold sy_validator in E. destruct (wd_size _ _ _); try discriminate. cbn [bind] in E. injection E as <-. cbn [sy_planner]. unfold detach. rewrite Hp. destruct d; [|eauto]. destruct (wd_dist _); cbn; eauto 10.
  - unfold change_validator in E. destruct (vget _ _); try discriminate. cbn [bind] in E. destruct (vset _ _ _); try discriminate. cbn [bind] in E. injection E as <-. eauto.
  - unfold change_validator in E. destruct (vget _ _); try discriminate. cbn [bind] in E. destruct (vset _ _ _); try discriminate. cbn [bind] in E. injection E as <-. eauto.
  - now destruct (N u).
  - injection E as <-. cbn. eauto.
  - injection E as <-. cbn. eauto.
  - injection E as <-. cbn. eauto.
  - injection E as <-. cbn. eauto.
  - destruct (sy_search s) as [[s1 b]| | |] eqn:Es; try discriminate. cbn in E. injection E as <-.
    destruct (search_inv _ _ _ _ _ _ _ _ Es Hr) as (v' & d1 & h1 & o1 & va & start & o' & w' & d' & g & gm & sol & st & rng' & path & E1 & _ & _ & _ & _ & _ & _ & _ & _ & ->).
    cbn. split; auto. rewrite Hp in E1. injection E1 as <- _ _ _. eauto.
Qed.

Lemma run_validated v l : forall s s', pl_ready (sy_planner s) = true /\ (exists d h o, pl_parts (sy_planner s) = Some (Parts v d h o)) ->
  (forall v', ~ In (PInitialize v') l) -> sy_run s l = Ok s' ->
  pl_ready (sy_planner s') = true /\ (exists d h o, pl_parts (sy_planner s') = Some (Parts v d h o)).
Proof.
  induction l as [|x l IH]; intros s s' H N E; cbn [Planner_model.sy_run] in E; [now injection E as <-|].
  destruct (sy_step _ _ _ _ _ s x) as [s1| | |] eqn:E1; try discriminate. cbn [bind] in E. refine (IH s1 s' _ _ E).
  - apply (step_validated v s x s1 H); auto. intros v' ->. apply (N v'). now left.
  - intros v' I. apply (N v'). now right.
Qed.

(** The distance map was updated by the user just before the search: the size of the map may have changed since [Initialize]. *)
Lemma planned_updated resolution junk m rng a v b last s s' : 0 < resolution -> 0 < hp_radius m -> 0 < hp_res m ->
  let l := a ++ PInitialize (Some v) :: b in
  let F := world_frames (fr_new resolution junk) (history l) in
  (forall v', ~ In (PInitialize v') b) -> updates last ->
  sy_run (sy_new Rng resolution junk m rng) (l ++ [PMap last]) = Ok s -> sy_search s = Ok (s', true) ->
  world_used (fr_new resolution junk) false false (history (l ++ [PMap last; PSearch])) ->
  exists va, nth_error (sy_validators s) v = Some va /\
  let p := sy_planner s in let path := pl_path (sy_planner s') in
  (0 < pl_step p -> 0 < va_step va ->
   (exists x, nth_error path 0 = Some x /\ same_pose x (pl_init p)) /\
   (exists y, nth_error path (length path - 1) = Some y /\ distance (position y) (position (pl_goal p)) < 3 / 2 * pl_step p + 1 / 1000) /\
   forall pre o x post, history l = pre ++ WAdd o x :: post -> ~ In o (world_registered [] pre) -> kept F o x post ->
   forall y q, In y path -> on_obstacle x q -> off_border F q -> margin (va_safe va) (va_step va) resolution F <= distance (position y) q).
Proof.
  intros Hres Hrad Hpres l F N Hl E Es W.
  assert (A : pl_ready (sy_planner s) = true /\ (exists d h o, pl_parts (sy_planner s) = Some (Parts v d h o))).
  { unfold l in E. rewrite <- app_assoc, <- app_comm_cons, sy_run_app in E. destruct (sy_run _ a) as [s1| | |]; try discriminate. cbn [bind Planner_model.sy_run] in E.
    destruct (sy_step _ _ _ _ _ s1 _) as [s2| | |] eqn:E2; try discriminate. cbn [bind] in E. apply initialize_attaches in E2 as [A1 (h & o & A2)]. refine (run_validated v _ s2 s _ _ E); eauto.
    intros v' I. apply in_app_or in I as [I|[I|[]]]; [now apply (N v')|discriminate]. }
  destruct A as [Ar (d0 & h0 & o0 & Ap)].
  destruct (run_calls _ _ _ _ _ (l ++ [PMap last]) _ _ _ _ (new_flags Rng resolution junk m rng) E) as [Wr _]. change (sy_world (sy_new Rng resolution junk m rng)) with (wd_new resolution junk) in Wr. fold (history (l ++ [PMap last])) in Wr.
  assert (E' : sy_run (sy_new Rng resolution junk m rng) ((l ++ [PMap last]) ++ [PSearch]) = Ok s').
  { rewrite sy_run_app, E. cbn [bind Planner_model.sy_run Planner_model.sy_step]. now rewrite Es. }
  destruct (run_calls _ _ _ _ _ _ _ _ _ _ (new_flags Rng resolution junk m rng) E') as [Wr' _]. change (sy_world (sy_new Rng resolution junk m rng)) with (wd_new resolution junk) in Wr'. fold (history ((l ++ [PMap last]) ++ [PSearch])) in Wr'.
  pose proof (run_params _ _ _ _ _ _ _ _ E) as Em. cbn in Em.
  rewrite <- app_assoc in Wr'. cbn [app] in Wr'.
  destruct (map_calls_app l [PMap last] false false) as (r1 & k1 & H1). destruct (map_calls_app l [PMap last; PSearch] false false) as (r2 & k2 & H2). fold (history l) in H1, H2. fold (history (l ++ [PMap last])) in H1. fold (history (l ++ [PMap last; PSearch])) in H2.
  assert (H1' : history (l ++ [PMap last]) = history l ++ [last]) by (rewrite H1; cbn [map_calls]; destruct last; reflexivity).
  assert (H2' : history (l ++ [PMap last; PSearch]) = history l ++ [last] \/ history (l ++ [PMap last; PSearch]) = (history l ++ [last]) ++ [WGvdUpdate]).
  { rewrite H2. cbn [map_calls]. destruct last; try (now destruct Hl); destruct (r2 && k2)%bool; rewrite <- ?app_assoc; auto. }
  rewrite H1' in Wr. assert (Wu : world_used (fr_new resolution junk) false false (history l ++ [last])).
  { destruct H2' as [H2' |H2']; rewrite H2' in W; [exact W|]. now apply used_before in W. }
  assert (EF : wd_frames (sy_world s) = F).
  { destruct (world_updated top topv Ht Htv resolution junk (history l) last Wu Hl) as (_ & _ & k & w0 & _ & K & _ & K2 & _).
    assert (w0 = sy_world s) as -> by (specialize (K (Nat.max k fuel) ltac:(lia)); rewrite (wd_run_more _ _ fuel) with (r := sy_world s) in K; [congruence|lia|exact Wr]). exact K2. }
  destruct H2' as [H2' |H2']; rewrite H2' in W, Wr'.
  - apply (planned_with resolution junk m v s s' (history l) last); eauto.
  - assert (FF : world_frames (fr_new resolution junk) (history l ++ [last]) = F) by (unfold F, world_frames; rewrite fold_left_app; destruct Hl as [-> | ->]; reflexivity).
    destruct (planned_with resolution junk m v s s' (history l ++ [last]) WGvdUpdate) as (va & Ev & P); eauto; [now rewrite FF|now right|].
    exists va. split; [exact Ev|]. intros p path Hs Hv. destruct (P Hs Hv) as (P1 & P2 & P3). split; [exact P1|]. split; [exact P2|]. rewrite FF in P3.
    intros pre o x post Eh Hn Hk. apply (P3 pre o x (post ++ [last])); auto; [now rewrite Eh, <- app_assoc, app_comm_cons|]. apply Forall_app. split; auto. destruct Hl as [-> | ->]; repeat constructor.
Qed.
End Planned.
