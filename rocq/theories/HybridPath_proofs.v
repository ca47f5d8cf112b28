(** Hybrid A*: the motions of the graph search, and the path that is sampled from them. *)
From Coq Require Import Reals Lra.
From Verif Require Import Base RealBase Grid_model Coords_model Pose_model Pose_spec Pose_proofs Straight_model Straight_spec Straight_proofs Bicycle_model Bicycle_spec Bicycle_proofs
  Composite_model Composite_spec Composite_proofs Rs_model Rs_spec Rs_proofs RsSolver_proofs Validator_model Validator_spec Validator_proofs ValidatorPart_proofs Frontier_model Frontier_spec AStar_model AStar_spec AStar_proofs
  Hybrid_model Hybrid_spec Hybrid_proofs HybridSample_proofs.
From Coq Require Import ZifyBool ZifyNat ZifyN.
Local Open Scope R_scope.

(** ** Single motions *)
Record sane (p : drive_path) : Prop := {
  sn_length : 0 <= dp_length p;
  sn_still : dp_length p = 0 -> forall s, 0 <= s <= 1 -> dp_at p s = dp_at p 0;
  sn_cusps : forall c, In c (dp_cusps p) -> 0 <= c <= 1;
  sn_speed : forall a b, 0 <= a <= 1 -> 0 <= b <= 1 -> distance (position (dp_at p a)) (position (dp_at p b)) <= Rabs (a - b) * dp_length p
}.

Lemma steered_sane c : rear_to_center (c_model c) = 0 -> 0 <= c_length c -> sane (Steered c).
Proof.
  intros H0 Hl. split; cbn [dp_length dp_at dp_cusps c_cusps]; auto.
  - intros Z s _. unfold c_at. rewrite Z, !Rmult_0_l. reflexivity.
  - intros x [].
  - intros a b _ _. unfold c_at. rewrite (steer_signed _ _ _ (_ * a)), (steer_signed _ _ _ (_ * b)). eapply Rle_trans; [apply steer_speed|].
    assert (cos (beta (c_model c) (c_steering c)) = 1) as -> by (unfold beta; rewrite H0; unfold Rdiv; rewrite !Rmult_0_l, atan_0; apply cos_0).
    unfold Rdiv. rewrite Rinv_1, Rmult_1_r. rewrite <- (Rabs_pos_eq (c_length c)) at 3 by auto. rewrite <- Rabs_mult.
    destruct (c_direction c); cbn [signed]; rewrite <- ?(Rabs_Ropp (_ - - _)); right; f_equal; ring.
Qed.

Lemma connected_sane init g l r : holds_motions g l -> 0 < r -> sane (Connected (rs_new init g r)).
Proof.
  intros H Hr. pose proof H as (_ & _ & El & F). pose proof (length_pos l F) as P.
  assert (L : q_length (rs_new init g r) = motions_length l * r) by (cbn; now rewrite El).
  split; cbn [dp_length dp_at dp_cusps].
  - rewrite L. nra.
  - intros Z s _. unfold rs_at, rs_interp. rewrite Z. destruct (Reqb_spec 0 0); [reflexivity|contradiction].
  - intros c I. destruct (Req_dec (motions_length l) 0) as [Z|N].
    + unfold rs_cusps in I. rewrite L, Z, Rmult_0_l in I. destruct (Reqb_spec 0 0); [destruct I|contradiction].
    + apply (cusps_rs init g l r) in I as (pre & a & b & post & -> & _ & ->); auto; [|lra].
      assert (motions_length (pre ++ a :: b :: post) = motions_length (pre ++ [a]) + motions_length (b :: post)) as E.
      { clear. induction pre as [|x pre IH]; cbn [app motions_length] in *; lra. }
      rewrite E in *. replace (pre ++ a :: b :: post) with ((pre ++ [a]) ++ b :: post) in F by (rewrite <- app_assoc; reflexivity). apply Forall_app in F as [F1 F2].
      pose proof (length_pos _ F1). pose proof (length_pos _ F2). set (u := motions_length (pre ++ [a])) in *. set (v := motions_length (b :: post)) in *.
      split; [apply Rmult_le_pos; [auto|left; apply Rinv_0_lt_compat; lra]|]. apply (Rmult_le_reg_r (u + v)); [lra|]. unfold Rdiv. rewrite Rmult_assoc, Rinv_l; lra.
  - intros a b Ha Hb. now apply (rs_at_distance init g l r).
Qed.

(** ** Sequences of motions *)
Notation arr := (arrives drive_path dp_length).

Lemma total_nonneg l : Forall sane l -> 0 <= dtotal l.
Proof. induction 1 as [|p l Hp _ IH]; cbn; [lra|]. pose proof (sn_length p Hp). lra. Qed.

Lemma start_pose l : Forall sane l -> forall init q x, leads init l q -> on_way l 0 x -> same_pose x init.
Proof.
  intros F init q x HL (p & s & (before & after & E & Hs & Hd) & ->). revert l F init HL E. induction before as [|y before IH]; intros l F init HL ->.
  - cbn [app leads] in HL. destruct HL as [H _]. apply Forall_inv in F. cbn [Composite_spec.total] in Hd. eapply same_pose_trans; [|exact H].
    destruct (Req_dec s 0) as [->|N]; [apply same_pose_refl|]. rewrite (sn_still p F); auto; [apply same_pose_refl|]. pose proof (sn_length p F). nra.
  - cbn [app leads] in HL. destruct HL as [H HL]. pose proof (Forall_inv F) as Y. apply Forall_inv_tail in F. cbn [Composite_spec.total] in Hd.
    pose proof (sn_length y Y). assert (F' := F). apply Forall_app in F' as [F1 F2]. pose proof (total_nonneg before F1). pose proof (sn_length p (Forall_inv F2)).
    assert (0 <= s * dp_length p) by nra. assert (dp_length y = 0) as Z by lra.
    eapply same_pose_trans; [apply (IH ltac:(lra) _ F _ HL eq_refl)|]. now rewrite (sn_still y Y Z 1) by lra.
Qed.

Lemma still_end l : Forall sane l -> dtotal l = 0 -> forall p q, leads p l q -> same_pose p q.
Proof.
  induction 1 as [|y l Y F IH]; intros Hz p q HL; cbn [leads] in HL; [subst; apply same_pose_refl|]. destruct HL as [H HL]. cbn in Hz.
  pose proof (sn_length y Y). pose proof (total_nonneg l F). eapply same_pose_trans; [apply same_pose_sym, H|]. rewrite <- (sn_still y Y ltac:(lra) 1) by lra. apply IH; auto. lra.
Qed.

Lemma end_pose l : Forall sane l -> forall init q x, leads init l q -> on_way l (dtotal l) x -> same_pose x q.
Proof.
  intros F init q x HL (p & s & (before & after & E & Hs & Hd) & ->). revert l F init HL E Hd. induction before as [|y before IH]; intros l F init HL -> Hd.
  - cbn [app leads] in *. destruct HL as [_ HL]. pose proof (Forall_inv F) as Y. apply Forall_inv_tail in F. cbn [Composite_spec.total] in Hd.
    pose proof (total_nonneg after F). pose proof (sn_length p Y). assert (0 <= (1 - s) * dp_length p) by (apply Rmult_le_pos; lra). assert ((1 - s) * dp_length p = 0) as Z by lra.
    eapply same_pose_trans; [|apply (still_end after F ltac:(lra) _ _ HL)].
    apply Rmult_integral in Z as [Z|Z]; [replace s with 1 by lra; apply same_pose_refl|]. rewrite (sn_still p Y Z s), (sn_still p Y Z 1) by lra. apply same_pose_refl.
  - cbn [app leads] in HL. destruct HL as [_ HL]. apply Forall_inv_tail in F. apply (IH _ F _ HL eq_refl). change ((y :: before) ++ p :: after) with (y :: (before ++ p :: after)) in Hd. cbn [Composite_spec.total] in Hd. clear IH. change (dtotal before + s * dp_length p = dtotal (before ++ p :: after)). lra.
Qed.

(** ** The sampled path *)
Lemma composite_facts l : Forall sane l -> k_length _ _ (dp_composite l) = dtotal l /\
  (forall c, In c (k_cusps pose drive_path dp_length dp_direction dp_cusps (dp_composite l)) -> 0 <= c <= 1) /\
  (l <> [] -> forall r, 0 <= r <= 1 -> exists x, dp_composite_at (dp_composite l) r = Ok x /\ on_way l (r * dtotal l) x).
Proof.
  intros F. assert (Hl : forall p, In p l -> 0 <= dp_length p) by (rewrite Forall_forall in F; intros p I; now apply sn_length, F).
  destruct (make_wf pose drive_path dp_length dp_final (Pose 0 0 0) l Hl) as (W & M & L). split; [exact L|]. split.
  - intros c I. pose proof (cusps_spec pose drive_path dp_length dp_final dp_direction dp_cusps (Pose 0 0 0) l c Hl) as S. apply S in I as [(p & Ip & Ic)|(pre & p & q & post & -> & _ & ->)].
    + rewrite Forall_forall in F. now apply (sn_cusps p (F p Ip)).
    + clear - F. assert (E : dtotal (pre ++ p :: q :: post) = dtotal (pre ++ [p]) + dtotal (q :: post)).
      { clear. induction pre as [|x pre IH]; cbn [app Composite_spec.total] in *; lra. }
      replace (pre ++ p :: q :: post) with ((pre ++ [p]) ++ q :: post) in F by (rewrite <- app_assoc; reflexivity). apply Forall_app in F as [F1 F2].
      pose proof (total_nonneg _ F1). pose proof (total_nonneg _ F2). rewrite E. set (u := dtotal (pre ++ [p])) in *. set (v := dtotal (q :: post)) in *.
      destruct (Req_dec (u + v) 0) as [Z|N]; [rewrite Z; unfold Rdiv; assert (u = 0) as -> by lra; rewrite Rmult_0_l; lra|].
      split; [apply Rmult_le_pos; [auto|left; apply Rinv_0_lt_compat; lra]|]. apply (Rmult_le_reg_r (u + v)); [lra|]. unfold Rdiv. rewrite Rmult_assoc, Rinv_l; lra.
  - intros Hne r Hr. destruct (at_arrives pose drive_path dp_length (fun p r => Ok (dp_at p r)) (fun p _ => p) (fun _ _ => NoMotion) (compose pose drive_path dp_length dp_final (Pose 0 0 0) l) r W) as (p & s & A & E); auto.
    { intros E. rewrite E in M. cbn in M. congruence. }
    exists (dp_at p s). split; [exact E|]. exists p, s. split; auto. rewrite M, L in A. exact A.
Qed.

Lemma interpolate_spec {A} (at_ : R -> res A) (P : R -> A -> Prop) l : (forall r, In r l -> exists x, at_ r = Ok x /\ P r x) ->
  exists xs, interpolate_all at_ l = Ok xs /\ Forall2 P l xs.
Proof.
  induction l as [|r l IH]; intros H; cbn [interpolate_all]; [eauto|]. destruct (H r (or_introl eq_refl)) as (x & -> & Hx). cbn [bind].
  destruct IH as (xs & -> & Hxs); [intros; apply H; now right|]. cbn [bind]. eauto.
Qed.

Lemma Forall2_nth {A B} (P : A -> B -> Prop) l m : Forall2 P l m -> forall i x, nth_error l i = Some x -> exists y, nth_error m i = Some y /\ P x y.
Proof. induction 1 as [|a b l m H _ IH]; intros [|i] x E; try discriminate; cbn in *; eauto. injection E as <-. eauto. Qed.
Lemma Forall2_nth_r {A B} (P : A -> B -> Prop) l m : Forall2 P l m -> forall i y, nth_error m i = Some y -> exists x, nth_error l i = Some x /\ P x y.
Proof. induction 1 as [|a b l m H _ IH]; intros [|i] x E; try discriminate; cbn in *; eauto. injection E as <-. eauto. Qed.

Lemma Forall2_len {A B} (P : A -> B -> Prop) l m : Forall2 P l m -> length l = length m.
Proof. induction 1; cbn; congruence. Qed.

(** The sampled path follows the motions, from the beginning to less than one and a half steps before the end. *)
Lemma sampled_spec fuel step l init q : Forall sane l -> leads init l q -> 0 < dtotal l -> 0 < step -> dtotal l < INR fuel * step ->
  exists poses marks, sampled_path fuel step (dp_composite l) = Ok (poses, marks) /\
  (exists x, nth_error poses 0 = Some x /\ same_pose x init) /\
  (exists ds, Forall2 (on_way l) ds poses /\ (forall i d, nth_error ds i = Some d -> INR i * step - step / 2 < d <= INR i * step + step / 2 /\ 0 <= d <= dtotal l)) /\
  dtotal l < INR (length poses) * step <= dtotal l + step.
Proof.
  intros F HL Ht Hs Hf. destruct (composite_facts l F) as (L & C & At). unfold sampled_path. rewrite L. set (cusps := k_cusps _ _ _ _ _ _) in *.
  destruct (sample_spec (dtotal l) step Ht Hs cusps C fuel Hf) as (rs & cs & E & Sm & B & H0). rewrite E. cbn [bind].
  assert (Hne : l <> []) by (intros ->; cbn in Ht; lra).
  destruct (interpolate_spec (dp_composite_at (dp_composite l)) (fun r x => on_way l (r * dtotal l) x) rs) as (xs & Ex & Fx).
  { intros r I. apply In_nth_error in I as [i Hi]. destruct (sm_window _ _ _ _ _ Sm i r Hi) as [_ Hr]. now apply At. }
  rewrite Ex. cbn [bind]. exists xs, cs. split; [reflexivity|]. split; [|split].
  - destruct (Forall2_nth _ _ _ Fx 0%nat 0 H0) as (x & E0 & Hx). exists x. split; auto. rewrite Rmult_0_l in Hx. eapply start_pose; eauto.
  - exists (map (fun r => r * dtotal l) rs). split.
    + clear - Fx. induction Fx; cbn; constructor; auto.
    + intros i d Hd. rewrite nth_error_map in Hd. destruct (nth_error rs i) as [r|] eqn:Er; [|discriminate]. cbn in Hd. assert (d = r * dtotal l) as -> by congruence.
      destruct (sm_window _ _ _ _ _ Sm i r Er) as [[W1 W2] Hr]. split; [lra|]. nra.
  - rewrite <- (Forall2_len _ _ _ Fx). exact B.
Qed.

(** ** The motions of the search *)
Section Search.
Variable m : params.
Variable f : frames.
Variable field : cell -> res (option R).
Variable vres : R.
Variable validate : path -> res (bool * R).
Variable heur : pose -> res xreal.
Variable Rng : Type.
Variable draw : Rng -> R * Rng.
Variable goal : pose.
Notation h_succ := (h_succ m f field vres validate heur Rng draw goal).
Notation graph_search := (graph_search m f field vres validate heur Rng draw goal).
Notation transition := (transition m validate goal).
Hypothesis Hr : 0 < hp_radius m.
Hypothesis Hres : 0 < hp_res m.
Hypothesis Hv : forall p r, 0 <= p_length p -> p_at p 0 = Ok (p_init p) -> validate p = Ok (false, r) -> 0 <= r <= 1.

Lemma steered_start c : p_at (as_path (Steered c)) 0 = Ok (p_init (as_path (Steered c))).
Proof. cbn. now rewrite c_at_0. Qed.

Lemma transition_sane s p t : transition s p t -> sane p.
Proof.
  intros (_ & _ & _ & _ & [(c & delta & dir & c0 & -> & _ & _ & <- & Hc)|(g & Eg & -> & _)]).
  - destruct Hc as [[-> _]|(q & Eq & -> & _)].
    + apply steered_sane; [reflexivity|]. cbn. lra.
    + apply steered_sane; [reflexivity|]. apply Hv in Eq; [|cbn; lra|apply steered_start]. cbn. nra.
  - destruct (optimal_path_spec (hs_pose s) goal (hp_radius m) (hp_reverse m) (hp_forward m) (hp_switching m) Hr) as (w & g' & c & E & _ & O & _).
    assert (g' = g) as -> by congruence. destruct (offered_goal _ _ _ _ _ Hr O) as (l & Hg & _). now apply (connected_sane _ g l).
Qed.

Lemma path_sane vfuel : forall l s t, is_path (h_succ vfuel) s l t -> Forall sane (path_actions l).
Proof.
  induction l as [|e l IH]; intros s t H; cbn [is_path] in H; [constructor|]. destruct H as [[g I] H]. apply succ_spec in I.
  constructor; [eapply transition_sane; eauto|]. eapply IH; eauto.
Qed.

(** C54: the whole planner. *)
Lemma result_spec vfuel fuel init g n st sfuel step : graph_search vfuel fuel init g = Ok (Some n, st) ->
  exists l q, search_motions (Some n) = Ok l /\ leads init l q /\ arrived q goal /\
  (0 < dtotal l -> 0 < step -> dtotal l < INR sfuel * step ->
   exists poses marks, sampled_path sfuel step (dp_composite l) = Ok (poses, marks) /\
   (exists x, nth_error poses 0 = Some x /\ same_pose x init) /\
   (exists ds, Forall2 (on_way l) ds poses /\ (forall i d, nth_error ds i = Some d -> INR i * step - step / 2 < d <= INR i * step + step / 2 /\ 0 <= d <= dtotal l)) /\
   dtotal l < INR (length poses) * step <= dtotal l + step).
Proof.
  intros E. destruct (search_trans _ _ _ _ _ _ _ _ _ _ _ _ _ _ _ E) as (s & l & <- & Hp & Ha & Hs). destruct (path_leads _ _ _ _ _ _ _ _ _ Hr _ _ _ _ Hp) as (L & _).
  exists (path_actions l), (hs_pose (n_state n)). split; [exact Ha|]. split; [exact L|]. split; [now apply identical_arrived|]. intros Ht Hst Hf.
  eapply sampled_spec; eauto. eapply path_sane; eauto.
Qed.

(** C67: starting at the goal. *)
Lemma root_solution {S A C P} (eqs : S -> S -> bool) ltb add (zero : C) (h : S -> C) (succ : P -> S -> list (S * A * C) * P) issol guard graph fuel init p :
  equivalence S eqs -> strict_weak_order C ltb -> issol init = true ->
  exists st, search_path eqs ltb add zero h succ issol guard graph (Datatypes.S fuel) init p = Ok (Some (Root init), st) /\ st_prop st = p.
Proof.
  intros H1 H2 Hi. unfold search_path. destruct (@init_search_ok S A C P eqs ltb zero H1 H2 init p) as (fr & -> & Hf & Hv'). cbn [bind search_loop st_front].
  assert (f_is_empty fr = false) as Ef by (unfold f_is_empty; now rewrite Hv'). rewrite Ef.
  destruct (pop_some eqs ltb add zero H1 H2 fr Hf Ef) as (n & fr' & Ep & _ & Hn & _). rewrite Hv' in Hn. destruct Hn as [<-|[]]. rewrite Ep. cbn [bind n_state]. rewrite Hi. eauto.
Qed.

Lemma empty_throws sfuel step : 0 < step -> sampled_path (S sfuel) step (dp_composite []) = Throw.
Proof.
  intros Hs. unfold sampled_path, dp_composite. cbn [fold_left k_new k_length k_cusps k_paths]. unfold sample, cusp_set. cbn [fold_left rset_insert].
  destruct (Rltb_spec 1 0); [exfalso; lra|]. destruct (Rltb_spec 0 1); [|exfalso; lra]. cbn [sample_loop]. destruct (Rleb_spec 0 0); [|exfalso; lra].
  destruct (Rleb_spec (0 * 0 - step / 2) 0); [|exfalso; lra]. destruct (Rltb_spec 0 (0 * 0 + step / 2)); [|exfalso; lra]. cbn [andb app length].
  destruct sfuel; cbn [sample_loop]; (destruct (Rleb_spec (0 + step) 0); [exfalso; lra|]); reflexivity.
Qed.

Lemma at_goal_throws vfuel fuel init g sfuel step smoother old ci cg : discretize m init = Ok ci -> discretize m goal = Ok cg -> identical_poses init goal = true ->
  0 < step -> hybrid_result (S sfuel) step smoother true (rmap fst (graph_search vfuel (S fuel) init g)) old = Throw.
Proof.
  intros Ei Eg Hid Hs. unfold Hybrid_model.graph_search, state_of_pose. rewrite Ei, Eg. cbn [bind]. set (si := HState NoMotion ci init).
  edestruct (root_solution hs_eqb x_ltb x_add (Some 0) (h_value heur) (h_succ vfuel) (h_solution goal) h_guard true fuel si (Ok g) hs_equiv x_swo) as (st & E & Es); [exact Hid|].
  unfold hybrid_result. cbn [negb]. rewrite E. cbn [bind]. rewrite Es. cbn [bind rmap fst]. match goal with |- context [search_motions ?x] => change (search_motions x) with (@Ok (list drive_path) []) end. cbn [bind].
  rewrite empty_throws by auto. reflexivity.
Qed.
End Search.
