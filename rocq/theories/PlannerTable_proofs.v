(** The planner and the table of the non-holonomic heuristic. *)
From Coq Require Import Reals Lra.
From Verif Require Import Base RealBase Grid_model Coords_model Pose_model Pose_spec Pose_proofs Straight_model Straight_spec Straight_proofs ObstacleMap_model Shape_model Gvd_model PathCost_model Validator_model
  World_model Frontier_model AStar_model AStar_spec AStar_proofs Hybrid_model Hybrid_proofs HybridPath_proofs NonHol_model NonHol_spec NonHol_proofs ObstHeur_model Planner_model Planner_spec Planner_proofs.
From Coq Require Import ZifyBool ZifyNat ZifyN.
Local Open Scope R_scope.

(** * Errors of the propagator stay *)
Section Errors.
Variable m : params.
Variable f : frames.
Variable field : cell -> res (option R).
Variable vres : R.
Variable validate : path -> res (bool * R).
Variable heur : pose -> res xreal.
Variable Rng : Type.
Variable draw : Rng -> R * Rng.
Variable goal : pose.
Notation h_succ := (h_succ m f field vres validate heur Rng draw goal).
Notation graph_search := (graph_search m f field vres validate heur Rng draw goal).

Definition is_ok {A} (r : res A) : Prop := exists a, r = Ok a.

Lemma succ_error vfuel (g : res Rng) s : ~ is_ok g -> snd (h_succ vfuel g s) = g.
Proof. destruct g as [g| | |]; [|reflexivity..]. intros H. destruct H. now exists g. Qed.

Lemma loop_error vfuel fuel : forall st sol st',
  search_loop hs_eqb x_ltb x_add (Some 0) (h_value heur) (h_succ vfuel) (h_solution goal) h_guard true fuel st = Ok (sol, st') -> ~ is_ok (st_prop st) -> ~ is_ok (st_prop st').
Proof.
  induction fuel as [|fuel IH]; intros st sol st' E H; cbn [search_loop] in E; [discriminate|].
  destruct (f_is_empty (st_front st)); [injection E as _ <-; exact H|]. destruct (f_pop _ _) as [[n fr]| | |]; try discriminate. cbn [bind] in E.
  destruct (h_solution goal (n_state n)); [injection E as _ <-; exact H|].
  match type of E with bind ?x _ = _ => destruct x as [st2| | |] eqn:Ex end; try discriminate. cbn [bind] in E. apply (IH st2 sol st' E).
  unfold expand in Ex. cbn [st_prop st_expl st_front st_queried] in Ex. pose proof (succ_error vfuel (st_prop st) (n_state n) H) as S. destruct (h_succ vfuel (st_prop st) (n_state n)) as [ts p]. cbn [snd] in S. subst p.
  destruct (expand_all _ _ _ _ _ _ _ _ _ _ _); try discriminate. cbn [bind] in Ex. injection Ex as <-. exact H.
Qed.

Lemma heuristic_error vfuel fuel init g r : identical_poses init goal = false -> ~ is_ok (heur init) -> graph_search vfuel fuel init g <> Ok r.
Proof.
  intros Hid Hh E. destruct r as [sol st']. unfold Hybrid_model.graph_search in E. destruct (state_of_pose m init) as [si| | |] eqn:Es; try discriminate. cbn [bind] in E.
  destruct (state_of_pose m goal) as [sg| | |]; try discriminate. cbn [bind] in E.
  assert (Hsi : hs_pose si = init) by (unfold state_of_pose in Es; destruct (discretize m init); try discriminate; cbn [bind] in Es; now injection Es as <-).
  match type of E with bind ?x _ = _ => destruct x as [[sol1 st1]| | |] eqn:El end; try discriminate. cbn [bind] in E.
  destruct (st_prop st1) as [rng| | |] eqn:Ep; try discriminate.
  unfold search_path in El. destruct (@init_search_ok hstate drive_path xreal (res Rng) hs_eqb x_ltb (Some 0) hs_equiv x_swo si (Ok g)) as (fr & Ei & Hf & Hv). rewrite Ei in El. clear Ei.
  cbn [bind] in El. destruct fuel as [|fuel]; [discriminate|]. cbn [search_loop st_front] in El.
  assert (f_is_empty fr = false) as Ef by (unfold f_is_empty; now rewrite Hv). rewrite Ef in El.
  destruct (pop_some hs_eqb x_ltb x_add (Some 0) hs_equiv x_swo fr Hf Ef) as (n & fr' & Epop & _ & Hn & _). rewrite Hv in Hn. destruct Hn as [<-|[]]. rewrite Epop in El. cbn [bind n_state] in El.
  unfold h_solution at 1 in El. rewrite Hsi, Hid in El. 
  match type of El with bind ?x _ = _ => destruct x as [st2| | |] eqn:Ex end; try discriminate. cbn [bind] in El.
  apply (loop_error _ _ _ _ _ El); [|now exists rng]. unfold expand in Ex. cbn [st_prop st_expl st_front st_queried n_state] in Ex.
  assert (S : ~ is_ok (snd (h_succ vfuel (Ok g) si))).
  { unfold Hybrid_model.h_succ, neighbors. rewrite Hsi. destruct (steer_children _ _ _ _ _ _ _ _) as [l| | |]; cbn [bind]; try (intros [x X]; discriminate X).
    destruct (heur init) as [x| | |] eqn:Eh; [exfalso; apply Hh; now exists x|cbn [bind]; intros [x X]; discriminate X..]. }
  destruct (h_succ vfuel (Ok g) si) as [ts p]. cbn [snd] in S. destruct (expand_all _ _ _ _ _ _ _ _ _ _ _); try discriminate. cbn [bind] in Ex. injection Ex as <-. exact S.
Qed.
End Errors.

(** * The table of the planner *)
Section Table.
Variables top topv : nat -> list (cell * Z) -> nat.
Variable fuel : nat.
Variable Rng : Type.
Variable draw : Rng -> R * Rng.
Notation sy_step := (sy_step top topv fuel Rng draw).
Notation sy_run := (sy_run top topv fuel Rng draw).
Notation sy_search := (sy_search top topv fuel Rng draw).

Definition table_of (m : params) (lower upper : pose) : res nonhol := nh_build lower upper (hp_res m) (hp_ang m) (hp_radius m) (hp_reverse m) (hp_forward m) (hp_switching m).

Definition tabled (v : nat) (s : system Rng) : Prop :=
  pl_ready (sy_planner s) = true /\ exists d h o va, pl_parts (sy_planner s) = Some (Parts v d h o) /\ nth_error (sy_validators s) v = Some va /\
  table_of (pl_params (sy_planner s)) (va_lower va) (va_upper va) = Ok h.

Lemma initialize_tabled s v s' : sy_step s (PInitialize (Some v)) = Ok s' -> tabled v s'.
Proof.
  cbn [Planner_model.sy_step]. unfold sy_initialize, vget. intros E.
  destruct (nth_error _ v) as [va|] eqn:Ev; try discriminate. cbn [bind] in E. destruct (wd_step _ _ _ _ _) as [w| | |]; try discriminate. cbn [bind] in E.
  destruct (nh_build _ _ _ _ _ _ _ _) as [h| | |] eqn:Eh; try discriminate. cbn [bind] in E. destruct (oh_new _ _) as [o| | |]; try discriminate. cbn [bind rmap fst] in E. injection E as <-.
  split; [reflexivity|]. exists OfMap, h, o, va. cbn. auto.
Qed.

Lemma nth_skip {A} n : forall (l : list A) k, nth_error (skipn n l) k = nth_error l (n + k).
Proof. induction n as [|n IH]; intros [|a l] k; cbn [skipn nth_error Nat.add]; auto. now destruct k. Qed.

Lemma nth_set {A} (l : list A) : forall i x l' j, vset l i x = Ok l' -> nth_error l' j = if (j =? i)%nat then Some x else nth_error l j.
Proof.
  unfold vset. intros i x l' j E. destruct (Nat.ltb_spec i (length l)) as [L|]; [|discriminate]. injection E as <-.
  destruct (Nat.eqb_spec j i) as [->|N].
  - rewrite nth_error_app2; rewrite firstn_length_le by lia; [|lia]. now rewrite Nat.sub_diag.
  - destruct (Nat.lt_ge_cases j i) as [J|J].
    + rewrite nth_error_app1 by (rewrite firstn_length_le; lia). clear - J. revert i J. revert l. induction j as [|j IH]; intros [|a l] [|i] J; try lia; auto. cbn. apply IH. lia.
    + rewrite nth_error_app2; rewrite firstn_length_le by lia; [|lia]. destruct (j - i)%nat as [|k] eqn:Ek; [lia|]. cbn [nth_error].
      change (nth_error (skipn (S i) l) k = nth_error l j). rewrite nth_skip. f_equal. lia.
Qed.

Lemma change_tabled v s n g s' : (forall va, va_lower (g va) = va_lower va /\ va_upper (g va) = va_upper va) -> tabled v s -> change_validator Rng s n g = Ok s' -> tabled v s'.
Proof.
  intros Hg [Hr (d & h & o & va & Hp & Hv & Ht)] E. unfold change_validator, vget in E. destruct (nth_error (sy_validators s) n) as [vb|] eqn:En; try discriminate. cbn [bind] in E.
  destruct (vset _ _ _) as [l| | |] eqn:El; try discriminate. cbn [bind] in E. injection E as <-. split; [exact Hr|]. cbn [sy_planner sy_validators].
  exists d, h, o. pose proof (nth_set _ _ _ _ v El) as X. destruct (Nat.eqb_spec v n) as [->|N].
  - exists (g vb). rewrite Hv in En. injection En as <-. destruct (Hg va) as [-> ->]. auto.
  - exists va. rewrite X. auto.
Qed.

Lemma detach_parts w p v d h o : pl_parts p = Some (Parts v d h o) -> exists d', pl_parts (detach w p) = Some (Parts v d' h o).
Proof. intros E. unfold detach. rewrite E. destruct d; [|eauto]. destruct (wd_dist w); cbn; eauto. Qed.

Lemma step_tabled v s x s' : tabled v s -> (forall v', x <> PInitialize v') -> sy_step s x = Ok s' -> tabled v s'.
Proof.
  intros T N E. assert (T' := T). destruct T as [Hr (d & h & o & va & Hp & Hv & Ht)]. destruct x as [x|lower upper|u r|u r|u|q|q|r|x|]; cbn [Planner_model.sy_step] in E.
  - destruct (wd_step _ _ _ _ _) as [w| | |]; try discriminate. cbn [bind] in E. injection E as <-. destruct x; try (split; [exact Hr|exists d, h, o, va; auto]; fail).
    destruct (detach_fields (sy_world s) (sy_planner s)) as (F1 & _ & _ & F2 & _). destruct (detach_parts (sy_world s) _ _ _ _ _ Hp) as (d' & Hd). split; cbn [sy_planner sy_validators]; [congruence|]. exists d', h, o, va. rewrite F1. auto.
  - unfold sy_validator in E. destruct (wd_size _ _ _); try discriminate. cbn [bind] in E. injection E as <-.
    destruct (detach_fields (sy_world s) (sy_planner s)) as (F1 & _ & _ & F2 & _). destruct (detach_parts (sy_world s) _ _ _ _ _ Hp) as (d' & Hd). split; cbn [sy_planner sy_validators]; [congruence|]. exists d', h, o, va. rewrite F1. split; auto. split; auto.
    rewrite nth_error_app1; [exact Hv|]. apply nth_error_Some. congruence.
  - revert E. apply change_tabled; auto.
  - revert E. apply change_tabled; auto.
  - now destruct (N u).
  - injection E as <-. exact T'.
  - injection E as <-. exact T'.
  - injection E as <-. exact T'.
  - injection E as <-. exact T'.
  - destruct (sy_search s) as [[s1 b]| | |] eqn:Es; try discriminate. cbn in E. injection E as <-.
    destruct (search_inv _ _ _ _ _ _ _ _ Es Hr) as (v' & d1 & h1 & o1 & va' & start & o' & w' & d' & g & gm & sol & st & rng' & path & E1 & _ & _ & _ & _ & _ & _ & _ & _ & ->).
    cbn. split; auto. rewrite Hp in E1. injection E1 as <- _ <- _. exists d', h, o', va. auto.
Qed.

Lemma run_tabled v l : forall s s', tabled v s -> (forall v', ~ In (PInitialize v') l) -> sy_run s l = Ok s' -> tabled v s'.
Proof.
  induction l as [|x l IH]; intros s s' H N E; cbn [Planner_model.sy_run] in E; [now injection E as <-|].
  destruct (sy_step s x) as [s1| | |] eqn:E1; try discriminate. cbn [bind] in E. refine (IH s1 s' _ _ E).
  - apply (step_tabled v s x s1 H); auto. intros v' ->. apply (N v'). now left.
  - intros v' I. apply (N v'). now right.
Qed.

Lemma history_tabled resolution junk m rng a v b s : (forall v', ~ In (PInitialize v') b) ->
  sy_run (sy_new Rng resolution junk m rng) (a ++ PInitialize (Some v) :: b) = Ok s -> tabled v s /\ pl_params (sy_planner s) = m.
Proof.
  intros N E. split; [|now apply run_params in E]. rewrite sy_run_app in E. destruct (sy_run _ a) as [s1| | |]; try discriminate. cbn [bind Planner_model.sy_run] in E.
  destruct (sy_step s1 _) as [s2| | |] eqn:E2; try discriminate. cbn [bind] in E. apply initialize_tabled in E2. eapply run_tabled; eauto.
Qed.

(** ** Its size *)
Lemma nodes_size size r n : 0 < r -> nh_nodes size r = Ok n -> size <= 100000000 * r -> size <= IZR n * r <= size + 2 * r /\ (0 <= n)%Z.
Proof.
  intros Hr E Hs. unfold nh_nodes in E. destruct (cast_uint _) as [k| | |] eqn:Ek; try discriminate. cbn [bind] in E. apply cast_uint_ok in Ek as [Ek Bk]. rewrite Rtrunc_IZR in Ek.
  destruct (Rceil_spec (size / r)) as [C1 C2]. assert (Q : size / r * r = size) by (field; lra). set (q := size / r) in *. rewrite <- Ek in C1, C2.
  assert (B : (k <= 100000000)%Z). { apply Z.lt_succ_r, lt_IZR. rewrite succ_IZR. assert (q <= 100000000) by (apply Rmult_le_reg_r with r; lra). lra. }
  assert (n = k \/ n = k + 1)%Z as [-> | ->].
  { destruct (Z.even k); injection E as <-; [right|now left]. apply Z.mod_small. lia. }
  - split; [|lia]. nra.
  - rewrite plus_IZR. split; [|lia]. nra.
Qed.

Lemma table_fields m lower upper h : table_of m lower upper = Ok h -> nh_res h = hp_res m /\ nh_ang h = hp_ang m /\ nh_radius h = hp_radius m /\
  nh_build lower upper (nh_res h) (nh_ang h) (nh_radius h) (nh_reverse h) (nh_forward h) (nh_switching h) = Ok h /\
  nh_nodes (px upper - px lower) (hp_res m) = Ok (nh_numx h) /\ nh_nodes (py upper - py lower) (hp_res m) = Ok (nh_numy h).
Proof.
  unfold table_of. intros E. assert (E' := E). unfold nh_build in E'. destruct (nh_nodes (px upper - px lower) _) as [a| | |] eqn:E1; try discriminate. cbn [bind] in E'.
  destruct (nh_nodes (py upper - py lower) _) as [b| | |] eqn:E2; try discriminate. cbn [bind] in E'. unfold nh_new in E'. destruct (cast_uint _); try discriminate. cbn [bind] in E'.
  injection E' as <-. cbn [nh_res nh_ang nh_radius nh_reverse nh_forward nh_switching nh_numx nh_numy]. repeat (split; [auto|]). auto.
Qed.

Lemma table_built m lower upper h : table_of m lower upper = Ok h -> 0 < hp_res m -> 1 / 1000 <= hp_ang m -> 0 < hp_radius m -> built h.
Proof. intros E H1 H2 H3. destruct (table_fields _ _ _ _ E) as (F1 & F2 & F3 & F4 & _). constructor; [eauto|lra..]. Qed.

Lemma table_offsets m lower upper h : table_of m lower upper = Ok h -> 0 < hp_res m -> 1 / 1000 <= hp_ang m -> 0 < hp_radius m ->
  px upper - px lower <= 100000000 * hp_res m -> py upper - py lower <= 100000000 * hp_res m ->
  (px upper - px lower) / 2 <= nh_offx h + hp_res m / 2 <= (px upper - px lower) / 2 + hp_res m /\ (py upper - py lower) / 2 <= nh_offy h + hp_res m / 2 <= (py upper - py lower) / 2 + hp_res m.
Proof.
  intros E H1 H2 H3 W1 W2. pose proof (table_built _ _ _ _ E H1 H2 H3) as B. destruct (table_fields _ _ _ _ E) as (F1 & _ & _ & _ & N1 & N2).
  apply nodes_size in N1; auto. apply nodes_size in N2; auto. destruct (built_spec h B) as (a & b & _ & Nx & Ny & _ & Ox & Oy & _). rewrite F1 in Ox, Oy. rewrite Nx, Ny in *. rewrite Ox, Oy. rewrite plus_IZR, mult_IZR in N1. rewrite plus_IZR, mult_IZR in N2. nra.
Qed.

(** ** Relative poses *)
Lemma rotated_le c s x y : c * c + s * s = 1 -> Rabs (c * x + s * y) <= sqrt (x * x + y * y).
Proof.
  intros H. rewrite <- sqrt_Rsqr_abs. apply sqrt_le_1_alt. unfold Rsqr. pose proof (Rle_0_sqr (c * y - s * x)) as Q. unfold Rsqr in Q. nra.
Qed.

Lemma sub_near a b : Rabs (px (pose_sub a b)) <= distance (position a) (position b) /\ Rabs (py (pose_sub a b)) <= distance (position a) (position b).
Proof.
  destruct (sub_fields a b) as (-> & -> & _). pose proof (sin2_cos2 (pth b)) as H. unfold Rsqr in H.
  assert (D : distance (position a) (position b) = sqrt ((px a - px b) * (px a - px b) + (py a - py b) * (py a - py b))) by (transitivity (sqrt ((px b - px a) * (px b - px a) + (py b - py a) * (py b - py a))); [reflexivity|f_equal; ring]).
  rewrite D. split; apply rotated_le; nra.
Qed.

Lemma sub_turn a b t : same_angle t (pth a - pth b) -> - PI < t < 0 -> pth (pose_sub a b) = t.
Proof.
  intros H Ht. destruct (sub_fields a b) as (_ & _ & ->). destruct (same_angle_trans _ _ _ (wrap_same (pth a - pth b)) (same_angle_sym _ _ H)) as (k & K). pose proof (wrap_range (pth a - pth b)) as B. rewrite K in *.
  pose proof PI_RGT_0. assert (k = 0)%Z as ->; [|lra]. assert (-1 < IZR k < 1) as [K1 K2] by (split; nra). apply lt_IZR in K1. apply lt_IZR in K2. lia.
Qed.

Lemma turned_apart a b t : same_angle t (pth a - pth b) -> - PI < t <= - (1 / 2000) -> identical_poses b a = false.
Proof.
  intros (k & K) Ht. unfold identical_poses. assert (Rltb (Rabs (pth b - pth a)) (1 / 1000 * PI / 180) = false) as ->; [|apply Bool.andb_false_r].
  apply Rltb_false. pose proof PI_small. pose proof PI_RGT_0. assert (E : pth b - pth a = - t + 2 * PI * IZR k) by lra. rewrite E.
  destruct (Z.eq_dec k 0) as [->|N]; [rewrite Rabs_right; lra|].
  assert (IZR k <= -1 \/ 1 <= IZR k) as [L|L] by (destruct (Z.lt_ge_cases k 0); [left|right]; apply IZR_le; lia); [rewrite Rabs_left; nra|rewrite Rabs_right; nra].
Qed.

(** ** The search reads outside *)
Lemma search_outside resolution junk m rng a v b s va t r :
  0 < hp_res m -> 1 / 1000 <= hp_ang m -> 0 < hp_radius m -> (forall v', ~ In (PInitialize v') b) ->
  sy_run (sy_new Rng resolution junk m rng) (a ++ PInitialize (Some v) :: b) = Ok s -> nth_error (sy_validators s) v = Some va ->
  let width := px (va_upper va) - px (va_lower va) in let height := py (va_upper va) - py (va_lower va) in
  let init := pl_init (sy_planner s) in let goal := pl_goal (sy_planner s) in
  width <= 100000000 * hp_res m -> height <= 100000000 * hp_res m ->
  distance (position goal) (position init) < width / 2 -> distance (position goal) (position init) < height / 2 ->
  same_angle t (pth goal - pth init) -> - PI < t <= - hp_ang m / 2 ->
  sy_search s <> Ok r.
Proof.
  intros H1 H2 H3 N E Ev width height init goal W1 W2 D1 D2 Ht Tt Es. destruct r as [s' r].
  destruct (history_tabled _ _ _ _ _ _ _ _ N E) as [[Hr (d & h & o & va' & Hp & Hv & T)] Pm]. rewrite Ev in Hv. injection Hv as <-. rewrite Pm in T.
  destruct (search_inv _ _ _ _ _ _ _ _ Es Hr) as (v' & d1 & h1 & o1 & va' & start & o' & w' & d' & g & gm & sol & st & rng' & path & E1 & _ & _ & _ & _ & _ & E7 & _).
  rewrite Hp in E1. injection E1 as <- <- <- <-. revert E7. rewrite Pm. fold init goal. apply heuristic_error.
  - apply (turned_apart goal init t Ht). lra.
  - assert (U : nh_value h goal init = UB).
    { pose proof (table_built _ _ _ _ T H1 H2 H3) as B. pose proof (table_offsets _ _ _ _ T H1 H2 H3 W1 W2) as (O1 & O2). destruct (table_fields _ _ _ _ T) as (F1 & F2 & _). fold width in O1. fold height in O2.
      destruct (sub_near goal init) as [S1 S2]. apply out_of_bounds; auto.
      - split; rewrite F1; lra.
      - split; rewrite F1; lra.
      - rewrite (sub_turn _ _ _ Ht), F2; lra. }
    unfold combined. rewrite U. intros [x X]. discriminate X.
Qed.

(** The headings for which it does not. *)
Lemma search_inside resolution junk m rng a v b s va q t :
  0 < hp_res m -> 1 / 1000 <= hp_ang m -> 0 < hp_radius m -> (forall v', ~ In (PInitialize v') b) ->
  sy_run (sy_new Rng resolution junk m rng) (a ++ PInitialize (Some v) :: b) = Ok s -> nth_error (sy_validators s) v = Some va ->
  let width := px (va_upper va) - px (va_lower va) in let height := py (va_upper va) - py (va_lower va) in
  let goal := pl_goal (sy_planner s) in
  width <= 100000000 * hp_res m -> height <= 100000000 * hp_res m ->
  distance (position goal) (position q) <= 800000000 * hp_res m ->
  same_angle t (pth goal - pth q) -> - hp_ang m / 2 < t < PI ->
  exists d h o x, pl_parts (sy_planner s) = Some (Parts v d h o) /\ nh_value h goal q = Ok (Some x).
Proof.
  intros H1 H2 H3 N E Ev width height goal W1 W2 D Ht Tt.
  destruct (history_tabled _ _ _ _ _ _ _ _ N E) as [[Hr (d & h & o & va' & Hp & Hv & T)] Pm]. rewrite Ev in Hv. injection Hv as <-. rewrite Pm in T.
  pose proof (table_built _ _ _ _ T H1 H2 H3) as B. pose proof (table_offsets _ _ _ _ T H1 H2 H3 W1 W2) as (O1 & O2). destruct (table_fields _ _ _ _ T) as (F1 & F2 & _). fold width in O1. fold height in O2.
  destruct (sub_near goal q) as [S1 S2]. destruct (in_bounds h goal q B) as (x & X & _).
  - split; rewrite F1; lra.
  - rewrite F2. destruct (sub_fields goal q) as (_ & _ & ->). destruct (same_angle_trans _ _ _ (wrap_same (pth goal - pth q)) (same_angle_sym _ _ Ht)) as (k & K). pose proof (wrap_range (pth goal - pth q)) as Bw. pose proof PI_RGT_0.
    rewrite K in *. destruct (Rle_dec t (- PI)) as [L|L].
    + assert (0 <= IZR k); [|nra]. apply IZR_le. destruct (Z.lt_ge_cases k 0) as [Hk|]; [|lia]. exfalso. assert (IZR k <= -1) by (apply IZR_le; lia). nra.
    + assert (0 <= IZR k); [|nra]. apply IZR_le. destruct (Z.lt_ge_cases k 0) as [Hk|]; [|lia]. exfalso. assert (IZR k <= -1) by (apply IZR_le; lia). nra.
  - exists d, h, o, x. auto.
Qed.
End Table.
