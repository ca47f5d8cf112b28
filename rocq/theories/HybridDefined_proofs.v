(** Hybrid A* on a map with a margin around the state space: the search has no undefined behaviour, and returns. *)
From Coq Require Import Reals Lra.
From Verif Require Import Base RealBase Grid_model Coords_model Pose_model Pose_spec Pose_proofs Straight_model Straight_spec Straight_proofs Bicycle_model Bicycle_spec Bicycle_proofs
  Composite_model Rs_model Rs_spec Rs_proofs RsSolver_proofs Validator_model Validator_spec Validator_proofs ValidatorPart_proofs Frontier_model Frontier_spec Frontier_proofs AStar_model AStar_spec AStar_proofs
  Hybrid_model Hybrid_spec Hybrid_proofs HybridSample_proofs HybridCell_proofs HybridPath_proofs HybridSafe_proofs HybridDemo_proofs HybridDefined_spec.
From Coq Require Import ZifyBool ZifyNat ZifyN.
Local Open Scope R_scope.

(** ** Results that do not depend on the bounds of the loops, once these are large *)
Definition settles {A} (F : nat -> nat -> res A) (a : A) : Prop := exists k, forall i j, (k <= i)%nat -> (k <= j)%nat -> F i j = Ok a.

Lemma settles_const {A} (r : res A) a : r = Ok a -> settles (fun _ _ => r) a.
Proof. intros ->. exists O. auto. Qed.
Lemma settles_bind {A B} (F : nat -> nat -> res A) (G : nat -> nat -> A -> res B) a b :
  settles F a -> settles (fun i j => G i j a) b -> settles (fun i j => do x <- F i j; G i j x) b.
Proof.
  intros [k Hk] [k' Hk']. exists (Nat.max k k'). intros i j Hi Hj. rewrite Hk by lia. cbn [bind]. apply Hk'; lia.
Qed.
Lemma settles_ext {A} (F G : nat -> nat -> res A) a : (forall i j, F i j = G i j) -> settles G a -> settles F a.
Proof. intros E [k Hk]. exists k. intros i j Hi Hj. rewrite E. auto. Qed.

(** ** A search whose propagator settles *)
Section Limit.
Variables (S A C P : Type).
Variable eqs : S -> S -> bool.
Variables (ltb : C -> C -> bool) (add : C -> C -> C) (zero : C).
Variable dflt : A.
Variable h : S -> C.
Variable succ : nat -> nat -> P -> S -> list (S * A * C) * P.
Variable issol : S -> bool.
Variable guard : S -> S -> bool.
Variable graph : bool.
Notation loop i j := (search_loop eqs ltb add zero h (succ i j) issol guard graph).
Notation node := (node S A C).

Lemma loop_fuel i j fuel : forall st x, loop i j fuel st = Ok x -> forall n, (fuel <= n)%nat -> loop i j n st = Ok x.
Proof.
  induction fuel as [|k IH]; intros st x E n Hn; [discriminate|]. destruct n as [|n]; [lia|]. cbn [search_loop] in *.
  destruct (f_is_empty (st_front st)); auto. destruct (f_pop _ _) as [[y fr]| | |]; try discriminate. cbn [bind] in *. destruct (issol (n_state y)); auto.
  destruct (expand _ _ _ _ _ _ _ _ _ _) as [st2| | |]; try discriminate. cbn [bind] in *. apply IH; auto. lia.
Qed.

Variable Q : S -> Prop.
Variable W : P -> Prop.
Hypothesis Hlim : forall p s, Q s -> W p -> exists ts p' k, W p' /\ (forall t, In t ts -> Q (fst (fst t))) /\
  forall i j, (k <= i)%nat -> (k <= j)%nat -> succ i j p s = (ts, p').

Definition nodes_ok (l : list node) : Prop := forall n, In n l -> Q (n_state n).

Hypothesis Heqs : equivalence S eqs.
Hypothesis Hltb : strict_weak_order C ltb.
Notation cmp := (@n_cmp S A C ltb zero).
Notation neq := (@n_eq S A C eqs).
Notation finv := (finv cmp neq).

Lemma upds_ok n e ts l l' : upds eqs ltb add zero h guard graph n e ts l l' -> Q (n_state n) -> (forall t, In t ts -> Q (fst (fst t))) -> nodes_ok l -> nodes_ok l'.
Proof.
  intros Hu Hn. induction Hu as [l|t ts l l1 l2 Hu Hus IH]; intros Hts Hl; auto. apply IH; [intros t' Ht'; apply Hts; now right|].
  intros y Hy. pose proof (Hts t (or_introl eq_refl)) as Ht. destruct Hu as [? ? Hm|? ? ? ? Hm|? ? Hm|? ? ? ? ? ? ? Hm]; apply Hm in Hy; auto.
  - destruct Hy as [->|Hy]; auto. now rewrite child_state.
  - destruct Hy as [->|[Hy _]]; auto. now rewrite child_state.
Qed.

Lemma loop_limit fuel : forall st, finv (st_front st) -> nodes_ok (vec (st_front st)) -> W (st_prop st) ->
  exists x k, (forall i j, (k <= i)%nat -> (k <= j)%nat -> loop i j fuel st = x) /\
    match x with Ok (r, st') => W (st_prop st') | NoFuel => True | _ => False end.
Proof.
  induction fuel as [|fuel IH]; intros st Hf Hn Hw.
  - exists NoFuel, O. split; auto.
  - destruct (f_is_empty (st_front st)) eqn:Ee.
    { exists (Ok (None, st)), O. split; auto. intros i j _ _. cbn [search_loop]. now rewrite Ee. }
    destruct (pop_some eqs ltb add zero Heqs Hltb (st_front st) Hf Ee) as (n & fr & Hp & Hfr & In_n & _ & Hmem & _).
    destruct (issol (n_state n)) eqn:Es.
    { exists (Ok (Some n, Search fr (st_expl st) (st_prop st) (st_queried st))), O. split; auto. intros i j _ _. cbn [search_loop]. rewrite Ee, Hp. cbn [bind]. now rewrite Es. }
    destruct (Hlim (st_prop st) (n_state n) (Hn n In_n) Hw) as (ts & p & k & Hp' & Hts & Hk).
    set (e := e_insert eqs n (st_expl st)).
    destruct (expand_all_upds eqs ltb add zero h guard graph Heqs Hltb n e ts fr Hfr) as (fr' & Ex & Hfr' & Hu).
    destruct (IH (Search fr' e p (n_state n :: st_queried st))) as (x & k' & Hx & Hr); auto.
    { cbn [st_front]. apply (upds_ok n e ts _ _ Hu); auto. intros y Hy. apply Hn, Hmem. auto. }
    exists x, (Nat.max k k'). split; auto. intros i j Hi Hj. cbn [search_loop]. rewrite Ee, Hp. cbn [bind]. rewrite Es. unfold expand. cbn [st_prop st_expl st_front st_queried].
    rewrite Hk by lia. fold e. rewrite Ex. cbn [bind]. apply Hx; lia.
Qed.

Lemma path_limit fuel init p : Q init -> W p ->
  exists x k, (forall i j, (k <= i)%nat -> (k <= j)%nat -> search_path eqs ltb add zero h (succ i j) issol guard graph fuel init p = x) /\
    match x with Ok (r, st') => W (st_prop st') | NoFuel => True | _ => False end.
Proof.
  intros Hi Hw. unfold search_path. destruct (@init_search_ok S A C P eqs ltb zero Heqs Hltb init p) as (fr & E & Hf & Hv). rewrite E. cbn [bind].
  apply loop_limit; auto. cbn [st_front]. rewrite Hv. intros n [<-|[]]. exact Hi.
Qed.

Lemma path_fuel i j fuel init p x : search_path eqs ltb add zero h (succ i j) issol guard graph fuel init p = Ok x ->
  forall n, (fuel <= n)%nat -> search_path eqs ltb add zero h (succ i j) issol guard graph n init p = Ok x.
Proof. unfold search_path. destruct (init_search _ _ _ _ _) as [st| | |]; try discriminate. cbn [bind]. apply loop_fuel. Qed.
End Limit.

(** ** Hybrid A* *)
Lemma cell_bounded f q c : world_to_cell f q false = Ok c -> inside_cell f c = true -> world_to_cell f q true = Ok c.
Proof.
  unfold world_to_cell, grid_to_cell. destruct (cast_int _) as [a| | |]; try discriminate. cbn [bind]. destruct (cast_int _) as [b| | |]; try discriminate. cbn [bind negb].
  intros E I. assert (c = Cell a b) as -> by congruence. now rewrite I.
Qed.

Section Defined.
Variable m : params.
Variable f : frames.
Variable field : cell -> res (option R).
Variable vres : R.
Variable clearance : cell -> res R.
Variables lb ub : pose.
Variables minSafe minStep : R.
Variable heur : pose -> res xreal.
Variable Rng : Type.
Variable draw : Rng -> R * Rng.
Variable goal : pose.
Notation validate i := (is_path_valid f clearance lb ub minSafe minStep i).
Notation is_valid := (is_state_valid f clearance lb ub minSafe).
Notation step_of := (step_length f clearance lb ub minSafe minStep).
Notation covered := (covered f clearance lb ub minSafe minStep).
Notation near := (within lb ub minStep).
Notation succ i j := (h_succ m f field vres (validate i) heur Rng draw goal j).
Hypothesis Hr : 0 < hp_radius m.
Hypothesis Hres : 0 < hp_res m.
Hypothesis Hvres : 0 < vres.
Hypothesis Hstep : 0 < minStep.
Hypothesis Hlocal : fr_local f = (0, 0).
Hypothesis Hmargin : margin f lb ub minStep.
Hypothesis Hclear : forall c, inside_cell f c = true -> exists d, clearance c = Ok d.
Hypothesis Hfield : forall c, inside_cell f c = true -> exists v, field c = Ok (Some v).
Hypothesis Hheur : forall p, near (position p) -> exists v, heur p = Ok v.
Hypothesis Hcell : forall p, within lb ub (minStep + 3 / 2 * hp_res m) (position p) -> exists c, discretize m p = Ok c.
Hypothesis Hgoal : near (position goal).

Lemma covered_near p s x : unit_speed p -> covered p s -> 0 <= s <= p_length p -> state_at p s x -> near (position x).
Proof.
  intros Hu (l & y & d & Hl & Hy & Hv & Hst & Hle) Hs Hx.
  destruct (valid_facts f clearance lb ub minSafe y Hv) as (c & dc & Ec & Ic & Dc & Lc & Bx & By).
  unfold step_length in Hst. rewrite Ec in Hst. cbn [bind] in Hst. rewrite Dc in Hst. cbn [bind] in Hst.
  set (border := Rmin (Rmin (Rmin (px y - px lb) (px ub - px y)) (py y - py lb)) (py ub - py y)) in Hst.
  assert (d = Rmax (Rmin (dc - minSafe) border) minStep) as -> by congruence.
  pose proof (Hu l s y x ltac:(lra) Hs Hy Hx) as U. assert (Rabs (l - s) = s - l) as A by (rewrite Rabs_left1; lra). rewrite A in U.
  unfold world_to_local, psub in Bx, By. rewrite Hlocal in Bx, By. cbn in Bx, By. destruct (distance_coords (position y) (position x)) as [D1 D2]. cbn [position fst snd] in D1, D2.
  assert (Bd : border <= px y - px lb /\ border <= px ub - px y /\ border <= py y - py lb /\ border <= py ub - py y).
  { unfold border. pose proof (Rmin_l (Rmin (Rmin (px y - px lb) (px ub - px y)) (py y - py lb)) (py ub - py y)).
    pose proof (Rmin_r (Rmin (Rmin (px y - px lb) (px ub - px y)) (py y - py lb)) (py ub - py y)).
    pose proof (Rmin_l (Rmin (px y - px lb) (px ub - px y)) (py y - py lb)). pose proof (Rmin_r (Rmin (px y - px lb) (px ub - px y)) (py y - py lb)).
    pose proof (Rmin_l (px y - px lb) (px ub - px y)). pose proof (Rmin_r (px y - px lb) (px ub - px y)). lra. }
  pose proof (Rle_trans _ _ _ D1 U) as X. pose proof (Rle_trans _ _ _ D2 U) as Y. apply Rabs_between in X, Y. pose proof (Rmin_r (dc - minSafe) border) as M.
  unfold within. cbn [position fst snd]. unfold Rmax in Hle. destruct (Rle_dec _ _); lra.
Qed.

Lemma near_valid x : near (position x) -> exists v, is_valid x = Ok v.
Proof.
  intros H. destruct (Hmargin _ H) as (c & E & I). unfold is_state_valid. rewrite (cell_bounded f _ c E I). cbn [bind]. rewrite I. destruct (Hclear c I) as [d ->].
  cbn [bind negb orb]. destruct (negb _); cbn [orb]; eauto.
Qed.

Lemma ratio_range l len : 0 <= l <= len -> 0 < len -> 0 <= l / len <= 1.
Proof. intros [H1 H2] H. split; [apply Rmult_le_pos; [auto|left; now apply Rinv_0_lt_compat]|]. apply (Rmult_le_reg_r len); auto. unfold Rdiv. rewrite Rmult_assoc, Rinv_l; lra. Qed.

Lemma loop_defined p : 0 < p_length p -> unit_speed p -> Validator_spec.total p -> forall k l last, 0 <= l ->
  (l < p_length p -> forall x, state_at p l x -> near (position x)) -> p_length p <= l + INR k * minStep ->
  exists b r, validate_loop f clearance lb ub minSafe minStep k p l last = Ok (b, r).
Proof.
  intros Hp Hu Ht. induction k as [|k IH]; intros l last Hl Hn Hk.
  - cbn. destruct (Rltb_spec l (p_length p)); [cbn in Hk; exfalso; lra|eauto].
  - rewrite loop_unfold. destruct (Rltb_spec l (p_length p)) as [L|L]; [|eauto]. destruct (Ht (l / p_length p)) as [x Ex]; [apply ratio_range; lra|].
    rewrite Ex. cbn [bind]. destruct (near_valid x (Hn L x Ex)) as [v Ev]. rewrite Ev. cbn [bind]. destruct v; cbn [negb]; [|eauto].
    destruct (step_defined f clearance lb ub minSafe minStep x Ev) as [d Ed]. rewrite Ed. cbn [bind]. pose proof (step_ge f clearance lb ub minSafe minStep x d Ed). rewrite S_INR in Hk.
    apply IH; [lra| |lra]. intros L' y Hy. apply (covered_near p (l + d) y); auto; [|lra]. exists l, x, d. repeat split; auto; lra.
Qed.

Lemma check_settles p : 0 <= p_length p -> (0 < p_length p -> unit_speed p) -> Validator_spec.total p -> near (position (p_init p)) -> (forall x, p_at p 0 = Ok x -> near (position x)) ->
  exists b r k, forall i, (k <= i)%nat -> validate i p = Ok (b, r).
Proof.
  intros Hp Hu Ht Hi H0. unfold is_path_valid. destruct (Reqb_spec (p_length p) 0) as [Z|Z].
  - destruct (near_valid _ Hi) as [v ->]. exists v, 1, O. auto.
  - assert (0 < p_length p) as Lp by lra. destruct (nat_above (p_length p / minStep)) as [k Hk]. assert (p_length p <= INR k * minStep).
    { apply (Rmult_lt_compat_r minStep) in Hk; auto. unfold Rdiv in Hk. rewrite Rmult_assoc, Rinv_l in Hk; lra. }
    destruct (loop_defined p Lp (Hu Lp) Ht k 0 0) as (b & r & E); [lra| |lra|].
    { intros _ x Hx. apply H0. unfold state_at in Hx. now replace (0 / p_length p) with 0 in Hx by (field; lra). }
    exists b, r, k. intros i Hik. exact (loop_more f clearance lb ub minSafe minStep p k 0 0 _ E i Hik).
Qed.

Lemma drive_settles p : sane p -> near (position (dp_init p)) -> near (position (dp_at p 0)) -> exists b r k, forall i, (k <= i)%nat -> validate i (as_path p) = Ok (b, r).
Proof.
  intros Sp Hi H0. apply check_settles; cbn [as_path p_length p_init p_at].
  - apply (sn_length p Sp).
  - now apply sane_unit_speed.
  - intros r _. cbn [as_path p_at]. eauto.
  - exact Hi.
  - intros x E. injection E as <-. exact H0.
Qed.

(** What is accepted stays near the bounds, and so does the part that is reported as valid. *)
Lemma accepted_near p i b r : sane p -> near (position (dp_at p 0)) -> validate i (as_path p) = Ok (b, r) -> b = true \/ 0 < r ->
  forall a, 0 <= a <= 1 -> (b = false -> a <= r) -> near (position (dp_at p a)).
Proof.
  intros Sp H0 E Hb a Ha Hr'. pose proof (sn_length p Sp) as L. destruct (Req_dec (dp_length p) 0) as [Z|Z]; [now rewrite (sn_still p Sp Z a Ha)|].
  assert (0 < dp_length p) as Lp by lra. apply (covered_near (as_path p) (a * dp_length p) (dp_at p a)).
  - now apply sane_unit_speed.
  - apply (check_part f clearance lb ub minSafe minStep (as_path p) i b r Hstep Lp E Hb); cbn [as_path p_length]; [nra|]. intros Eb. specialize (Hr' Eb). nra.
  - cbn [as_path p_length]. nra.
  - unfold state_at. cbn [as_path p_at p_length]. f_equal. f_equal. field. lra.
Qed.

Lemma voronoi_loop_settles p : (forall a, 0 <= a <= 1 -> near (position (dp_at p a))) -> forall k l c, 0 <= l -> dp_length p <= l + INR k * (vres * sqrt 2) ->
  exists v, forall j, (k <= j)%nat -> voronoi_loop f field vres j (as_path p) l (Some c) = Ok (Some v).
Proof.
  intros Hn. pose proof sqrt2_gt. assert (P : 0 < vres * sqrt 2) by nra. induction k as [|k IH]; intros l c Hl Hk.
  - exists c. intros j _. assert (Rltb l (p_length (as_path p)) = false) as E.
    { destruct (Rltb_spec l (p_length (as_path p))) as [L|L]; auto. cbn [as_path p_length] in L. cbn in Hk. exfalso; lra. }
    destruct j; cbn [voronoi_loop]; now rewrite E.
  - destruct (Rltb l (p_length (as_path p))) eqn:E.
    + apply Rltb_true in E. cbn [as_path p_length] in E. destruct (Hmargin _ (Hn (l / dp_length p) (ratio_range l (dp_length p) ltac:(lra) ltac:(lra)))) as (cl & Ec & I).
      destruct (Hfield cl I) as [v Ev]. destruct (IH (l + vres * sqrt 2) v) as [w Hw]; [lra|rewrite S_INR in Hk; lra|].
      exists w. intros [|j] Hj; [lia|]. cbn [voronoi_loop as_path p_length p_at bind]. destruct (Rltb_spec l (dp_length p)); [|exfalso; lra]. rewrite Ec. cbn [bind]. rewrite Ev. cbn [bind].
      apply Hw. lia.
    + exists c. intros [|j] Hj; cbn [voronoi_loop]; now rewrite E.
Qed.

Lemma voronoi_settles p : (forall a, 0 <= a <= 1 -> near (position (dp_at p a))) -> exists v k, forall j, (k <= j)%nat -> voronoi_cost m f field vres j p = Ok v.
Proof.
  intros Hn. pose proof sqrt2_gt. assert (P : 0 < vres * sqrt 2) by nra. destruct (nat_above (dp_length p / (vres * sqrt 2))) as [k Hk].
  assert (dp_length p <= 0 + INR k * (vres * sqrt 2)).
  { apply (Rmult_lt_compat_r (vres * sqrt 2)) in Hk; auto. unfold Rdiv in Hk. rewrite Rmult_assoc, Rinv_l in Hk; lra. }
  destruct (voronoi_loop_settles p Hn k 0 0) as [v Hv]; [lra|lra|]. exists (hp_voronoi m * (v * (vres * sqrt 2))), k. intros j Hj. unfold voronoi_cost. rewrite Hv by auto. reflexivity.
Qed.

(** The states of the search. *)
Definition good (s : hstate) : Prop := discretize m (hs_pose s) = Ok (hs_cell s) /\ near (position (hs_pose s)).

Lemma within_more d e q : d <= e -> within lb ub d q -> within lb ub e q.
Proof. unfold within. lra. Qed.

Lemma steered_cell c a : rear_to_center (c_model c) = 0 -> 0 <= c_length c <= 3 / 2 * hp_res m -> near (position (c_init c)) -> 0 <= a <= 1 -> exists n, discretize m (c_at c a) = Ok n.
Proof.
  intros Hc L H Ha. apply Hcell. pose proof (sn_speed _ (steered_sane c Hc ltac:(lra)) 0 a ltac:(lra) Ha) as D. cbn [dp_at dp_length] in D. rewrite c_at_0 in D.
  assert (Rabs (0 - a) * c_length c <= 3 / 2 * hp_res m) as B by (rewrite Rabs_left1 by lra; nra). destruct (distance_coords (position (c_init c)) (position (c_at c a))) as [D1 D2].
  pose proof (Rle_trans _ _ _ D1 (Rle_trans _ _ _ D B)) as X. pose proof (Rle_trans _ _ _ D2 (Rle_trans _ _ _ D B)) as Y. apply Rabs_between in X, Y. unfold within in *. cbn [position fst snd] in *. lra.
Qed.

Lemma steer_settles s delta dir : good s -> exists o, settles (fun i j => steer_child m f field vres (validate i) j s delta dir) o /\ (forall t p c, o = Some (t, p, c) -> good t).
Proof.
  intros [Hs Hn]. set (c := c_new (hp_model m) (hs_pose s) delta (hp_res m * (3 / 2)) dir).
  assert (Hc : rear_to_center (c_model c) = 0) by reflexivity. assert (L : c_length c = hp_res m * (3 / 2)) by reflexivity.
  assert (Sp : sane (Steered c)) by (apply steered_sane; [exact Hc|lra]). assert (N0 : near (position (dp_at (Steered c) 0))) by (cbn [dp_at]; rewrite c_at_0; exact Hn).
  assert (F1 : c_final c = c_at c 1) by (apply c_built_final; constructor).
  destruct (steered_cell c 1 Hc ltac:(lra) Hn ltac:(lra)) as [n1 E1]. destruct (drive_settles (Steered c) Sp Hn N0) as (b & r & k & Hk).
  pose proof (Hk k (le_n k)) as Ek. assert (Q : b = false -> 0 <= r <= 1).
  { intros ->. apply (validate_ratio f clearance lb ub minSafe minStep k Hstep (as_path (Steered c)) r); [cbn; lra|apply steered_start|exact Ek]. }
  pose proof (accepted_near (Steered c) k b r Sp N0 Ek) as An. destruct b.
  - destruct (voronoi_settles (Steered c)) as (v & k' & Hk'); [intros a Ha; apply An; auto; discriminate|]. eexists. split.
    + exists (Nat.max k k'). intros i j Hi Hj. unfold steer_child. fold c. unfold state_of_path. cbn [dp_final]. rewrite F1, E1. cbn [bind]. rewrite Hk by lia. cbn [bind]. unfold steer_cost. rewrite Hk' by lia. cbn [bind]. reflexivity.
    + intros t p x E. injection E as <- _ _. split; cbn [hs_pose hs_cell]; [exact E1|]. apply (An (or_introl eq_refl)); [lra|discriminate].
  - specialize (Q eq_refl). destruct (steered_cell c r Hc ltac:(lra) Hn Q) as [n2 E2]. set (t := HState (dp_direction (Steered c) 1) n2 (c_at c r)). destruct (hs_eqb s t) eqn:Eq.
    + exists None. split; [|discriminate]. exists k. intros i j Hi Hj. unfold steer_child. fold c. unfold state_of_path. cbn [dp_final]. rewrite F1, E1. cbn [bind]. rewrite Hk by lia. cbn [bind dp_truncate dp_final c_truncate c_final].
      rewrite E2. cbn [bind hs_dir]. fold t. now rewrite Eq.
    + assert (0 < r) as Rp.
      { destruct (proj1 Q) as [Rp|<-]; [exact Rp|]. exfalso. rewrite c_at_0 in E2. change (c_init c) with (hs_pose s) in E2. unfold hs_eqb in Eq. rewrite (proj2 (ipose_eqb_eq _ _)) in Eq; [discriminate|]. cbn [t hs_cell]. congruence. }
      assert (Nt : forall a, 0 <= a <= 1 -> near (position (dp_at (Steered (c_truncate c r)) a))).
      { intros a Ha. cbn [dp_at]. rewrite c_truncate_at. apply (An (or_intror Rp) (r * a)); [nra|intros _; nra]. }
      destruct (voronoi_settles (Steered (c_truncate c r)) Nt) as (v & k' & Hk'). eexists. split.
      * exists (Nat.max k k'). intros i j Hi Hj. unfold steer_child. fold c. unfold state_of_path. cbn [dp_final]. rewrite F1, E1. cbn [bind]. rewrite Hk by lia. cbn [bind dp_truncate dp_final c_truncate c_final].
        rewrite E2. cbn [bind hs_dir]. fold t. rewrite Eq. change (CSteer (c_model c) (c_init c) (c_at c r) (c_length c * r) (c_steering c) (c_direction c)) with (c_truncate c r).
        unfold steer_cost. rewrite Hk' by lia. cbn [bind]. reflexivity.
      * intros t' p x E. injection E as <- _ _. split; [exact E2|]. apply (An (or_intror Rp) r); [lra|intros _; lra].
Qed.

Lemma rs_settles s : good s -> exists o, settles (fun i j => rs_child m f field vres (validate i) goal j s) o /\ (forall t p c, o = Some (t, p, c) -> good t).
Proof.
  intros [Hs Hn]. destruct (optimal_path_spec (hs_pose s) goal (hp_radius m) (hp_reverse m) (hp_forward m) (hp_switching m) Hr) as (w & g & c & Eg & _ & O & _ & Hq & Ec & _).
  destruct (offered_goal _ _ _ _ _ Hr O) as (l & Hg & _). set (q := rs_new (hs_pose s) g (hp_radius m)) in *. pose proof (connected_sane (hs_pose s) g l _ Hg Hr) as Sp. fold q in Sp.
  destruct (rs_ends (hs_pose s) g l (hp_radius m) Hg Hr) as (H0 & H1 & _). fold q in H0, H1.
  assert (N0 : near (position (dp_at (Connected q) 0))) by (cbn [dp_at]; destruct H0 as (X & Y & _); unfold within in *; cbn [position fst snd] in *; rewrite X, Y; exact Hn).
  assert (N1 : near (position (q_final q))) by (destruct Hq as (X & Y & _); unfold within in *; cbn [position fst snd] in *; rewrite X, Y; exact Hgoal).
  destruct (drive_settles (Connected q) Sp Hn N0) as (b & r & k & Hk). pose proof (accepted_near (Connected q) k b r Sp N0 (Hk k (le_n k))) as An. destruct b.
  - destruct (voronoi_settles (Connected q)) as (v & k' & Hk'); [intros a Ha; apply An; auto; discriminate|]. destruct (Hcell (q_final q)) as [n E2]; [apply (within_more minStep); auto; lra|]. eexists. split.
    + exists (Nat.max k k'). intros i j Hi Hj. unfold rs_child. rewrite Eg. cbn [bind]. fold q. rewrite Hk by lia. cbn [bind negb]. unfold state_of_path. cbn [dp_final]. rewrite E2. cbn [bind]. rewrite Hk' by lia. cbn [bind]. reflexivity.
    + intros t p x E. injection E as <- _ _. split; [exact E2|exact N1].
  - exists None. split; [|discriminate]. exists k. intros i j Hi Hj. unfold rs_child. rewrite Eg. cbn [bind]. fold q. now rewrite Hk by lia.
Qed.

Definition all_good (l : list (hstate * drive_path * xreal)) : Prop := forall t, In t l -> good (fst (fst t)).
Lemma opt_good o : (forall t p c, o = Some (t, p, c) -> good t) -> all_good (opt_list o).
Proof. intros H x I. destruct o as [[[t p] c]|]; [destruct I as [<-|[]]; cbn; eauto|destruct I]. Qed.
Lemma app_good a b : all_good a -> all_good b -> all_good (a ++ b).
Proof. intros Ha Hb x I. apply in_app_iff in I as [I|I]; auto. Qed.

Lemma children_settle s : good s -> forall ds, exists l, settles (fun i j => steer_children m f field vres (validate i) j s ds) l /\ all_good l.
Proof.
  intros Hs. induction ds as [|d ds (l & Hl & Gl)]; [exists []; split; [now exists O|intros x []]|].
  destruct (steer_settles s d Forward Hs) as (a & Ha & Ga). destruct (steer_settles s d Backward Hs) as (b & Hb & Gb).
  exists (opt_list a ++ opt_list b ++ l). split; [|apply app_good; [now apply opt_good|apply app_good; [now apply opt_good|exact Gl]]].
  cbn [steer_children]. eapply settles_bind; [exact Ha|]. eapply settles_bind; [exact Hb|]. eapply settles_bind; [exact Hl|]. now apply settles_const.
Qed.

Lemma neighbors_settle s g : good s -> exists l g', settles (fun i j => neighbors m f field vres (validate i) heur Rng draw goal j g s) (l, g') /\ all_good l.
Proof.
  intros Hs. destruct (children_settle s Hs (deltas m)) as (l & Hl & Gl). destruct (Hheur (hs_pose s) (proj2 Hs)) as [v Ev].
  destruct (try_connection Rng draw g v) as [try g'] eqn:Et. destruct try.
  - destruct (rs_settles s Hs) as (o & Ho & Go). exists (l ++ opt_list o), g'. split; [|apply app_good; [exact Gl|now apply opt_good]].
    unfold neighbors. eapply settles_bind; [exact Hl|]. rewrite Ev. cbn [bind]. rewrite Et. eapply settles_bind; [exact Ho|]. now apply settles_const.
  - exists l, g'. split; [|exact Gl]. unfold neighbors. eapply settles_bind; [exact Hl|]. rewrite Ev. cbn [bind]. rewrite Et. now apply settles_const.
Qed.

Lemma estimates_good l : all_good l -> estimates_ok heur l = Ok tt.
Proof.
  induction l as [|[[s p] c] l IH]; intros H; cbn [estimates_ok]; [reflexivity|]. destruct (Hheur (hs_pose s)) as [v ->]; [apply (H _ (or_introl eq_refl))|]. cbn [bind]. apply IH. intros t I. apply H. now right.
Qed.

Lemma succ_settles (p : res Rng) s : good s -> (exists g, p = Ok g) -> exists ts p' k, (exists g, p' = Ok g) /\ (forall t, In t ts -> good (fst (fst t))) /\
  forall i j, (k <= i)%nat -> (k <= j)%nat -> succ i j p s = (ts, p').
Proof.
  intros Hs [g ->]. destruct (neighbors_settle s g Hs) as (l & g' & [k Hk] & Gl). exists l, (Ok g'), k. split; [eauto|]. split; [exact Gl|].
  intros i j Hi Hj. unfold h_succ. rewrite Hk by auto. cbn [bind]. now rewrite estimates_good.
Qed.

Theorem search_returns init g : near (position init) ->
  exists r st k, forall i j n, (k <= i)%nat -> (k <= j)%nat -> (k <= n)%nat -> graph_search m f field vres (validate i) heur Rng draw goal j n init g = Ok (r, st).
Proof.
  intros Hi. destruct (Hcell init) as [ci Ei]; [apply (within_more minStep); auto; lra|]. destruct (Hcell goal) as [cg Eg]; [apply (within_more minStep); auto; lra|].
  set (si := HState NoMotion ci init). assert (Gs : good si) by (split; auto).
  assert (exists B, reach m f lb ub / hp_res m <= IZR B /\ Rabs (px goal) / hp_res m <= IZR B /\ Rabs (py goal) / hp_res m <= IZR B) as (B & B1 & B2 & B3).
  { exists (Z.max (up (reach m f lb ub / hp_res m)) (Z.max (up (Rabs (px goal) / hp_res m)) (up (Rabs (py goal) / hp_res m)))).
    pose proof (archimed (reach m f lb ub / hp_res m)). pose proof (archimed (Rabs (px goal) / hp_res m)). pose proof (archimed (Rabs (py goal) / hp_res m)).
    split; [|split]; (eapply Rle_trans; [left; apply archimed|apply IZR_le; lia]). }
  set (N := S (S (7 * Z.to_nat (2 * B + 1) * Z.to_nat (2 * B + 1)))).
  destruct (path_limit hstate drive_path xreal (res Rng) hs_eqb x_ltb x_add (Some 0) (h_value heur) (fun i j => succ i j) (h_solution goal) h_guard true good (fun p => exists g, p = Ok g)
    succ_settles hs_equiv x_swo N si (Ok g) Gs (ex_intro _ g eq_refl)) as (x & k & Hk & Hx).
  destruct (search_ends m f field vres clearance lb ub minSafe minStep k heur Rng draw goal Hr Hres Hstep B si k N (Ok g) (proj1 Gs) B1 B2 B3 ltac:(lia)) as (r & st & E & _).
  rewrite (Hk k k) in E by lia. subst x. destruct Hx as [g' Hg]. exists r, st, (Nat.max k N). intros i j n Hi' Hj Hn'. unfold graph_search, state_of_pose. rewrite Ei, Eg. cbn [bind]. fold si.
  pose proof (Hk i j ltac:(lia) ltac:(lia)) as E.
  rewrite (path_fuel hstate drive_path xreal (res Rng) hs_eqb x_ltb x_add (Some 0) (h_value heur) (fun i j => succ i j) (h_solution goal) h_guard true i j N si (Ok g) _ E n ltac:(lia)).
  cbn [bind]. rewrite Hg. reflexivity.
Qed.
End Defined.
