(** From the outlines of the obstacles to the paths that were found valid. *)
From Coq Require Import Reals Lra.
From Verif Require Import Base RealBase Grid_model Grid_spec Grid_proofs Coords_model Coords_proofs Pose_model Straight_model Straight_spec Straight_proofs
  Shape_model Shape_spec Shape_proofs Outline_proofs ObstacleMap_model ObstacleMap_proofs Gvd_model Gvd_proofs Gvd_api_proofs PathCost_model
  Validator_model Validator_spec Validator_proofs Validator_map_proofs World_model World_spec World_proofs.
From Verif Require ObstacleMap_spec Gvd_spec.
From Coq Require Import ZifyBool ZifyNat ZifyN.
Local Open Scope R_scope.

(** * Agreement *)
Definition has_size (ops : list wop) : Prop := Exists (fun x => match x with WSize _ _ => True | _ => False end) ops.

Lemma sized_true ops : fold_left sized_step ops true = true.
Proof. induction ops as [|x ops IH]; auto. cbn. destruct x; exact IH. Qed.
Lemma has_size_true ops : has_size ops -> forall b, fold_left sized_step ops b = true.
Proof.
  induction 1 as [x ops H|x ops H IH]; intros b; cbn; [|apply IH]. destruct x; try easy. apply sized_true.
Qed.

Section Agreement.
Variables top topv : nat -> list (cell * Z) -> nat.
Hypothesis Htop : Gvd_spec.priority top.
Hypothesis Htopv : Gvd_spec.priority topv.

Lemma winv_agrees w f reg made cov gops : winv top topv w f reg true made cov gops ->
  exists g, wd_dist w = Some g /\ forall c, inside (fr_rows f) (fr_cols f) c ->
    om_occupied (wd_map w) c = Ok (cov c) /\ (nearest_obstacle (g_obs g) c = Ok c <-> cov c = true).
Proof.
  intros [I1 I2 I3 (D1 & D2 & D3 & D4 & D5 & D6 & occ & g0 & g & k & G1 & G2 & G3 & G4)]. exists g. split; auto. intros c Hc. split.
  - specialize (D6 c). unfold om_occupied, mark_ok in *. unfold size_ok in D2. destruct (om_matrix (wd_map w)) as [m|]; [|easy].
    destruct D2 as (_ & Er & Ec). rewrite <- Er, <- Ec in Hc. destruct (D6 Hc) as (v & -> & Hv). cbn [bind].
    destruct (cov c), (Z.leb_spec 0 v) as [L|L]; auto; exfalso.
    + assert (0 <= v)%Z by (apply Hv; discriminate). lia.
    + apply Hv in L. easy.
  - destruct (api_consistent _ _ D1 top topv Htop Htopv occ G2 _ D3) as (k' & st0 & st & E0 & E & _ & _ & K & _).
    assert (st0 = g0) as -> by congruence. specialize (E (Nat.max k k') ltac:(lia)). rewrite G4 in E by lia. assert (st = g) as -> by congruence.
    rewrite (K c Hc). unfold Gvd_spec.obstacle. now rewrite <- D5.
Qed.

Lemma world_agrees resolution junk ops : world_used (fr_new resolution junk) false false ops -> has_size ops ->
  exists k w g, (forall fuel, (k <= fuel)%nat -> wd_run top topv fuel (wd_new resolution junk) ops = Ok w) /\ wd_dist w = Some g /\
  wd_frames w = world_frames (fr_new resolution junk) ops /\
  forall c, inside (fr_rows (wd_frames w)) (fr_cols (wd_frames w)) c ->
    om_occupied (wd_map w) c = Ok (world_covered (fr_new resolution junk) [] false ops c) /\
    (nearest_obstacle (g_obs g) c = Ok c <-> world_covered (fr_new resolution junk) [] false ops c = true).
Proof.
  intros U H. destruct (wd_run_ok top topv Htop Htopv ops _ _ _ _ _ _ _ (winv_new top topv resolution junk) U) as (k & w & gops & E & W & _).
  rewrite (has_size_true _ H) in W. destruct (winv_agrees _ _ _ _ _ _ W) as (g & Eg & A). exists k, w, g. split; auto. split; auto.
  destruct W as [I1 _ _ _]. split; auto. rewrite I1. exact A.
Qed.

(** * After an update *)
Definition updates (last : wop) : Prop := last = WUpdate \/ last = WGvdUpdate.

Lemma update_keeps fuel g g' : g_run top topv fuel g [GUpdateVoronoi] = Ok g' -> g_obs g' = g_obs g.
Proof.
  unfold g_run. cbn [fold_res g_step]. unfold on_voronoi. destruct (g_vor g) as [v|]; [|discriminate].
  intros E. match type of E with bind (bind ?x _) _ = _ => destruct x end; cbn [bind] in E; try discriminate. now injection E as <-.
Qed.

Lemma world_updated resolution junk ops last : world_used (fr_new resolution junk) false false (ops ++ [last]) -> updates last ->
  exists gops occ k w g, (forall fuel, (k <= fuel)%nat -> wd_run top topv fuel (wd_new resolution junk) (ops ++ [last]) = Ok w) /\ wd_dist w = Some g /\
  let f := world_frames (fr_new resolution junk) ops in
  wd_frames w = f /\ Gvd_spec.representable (fr_rows f) (fr_cols f) /\ Gvd_spec.sized (fr_rows f) (fr_cols f) occ /\
  Gvd_spec.well_used (fr_rows f) (fr_cols f) false (gops ++ [GUpdateObstacles]) /\
  (forall c, inside (fr_rows f) (fr_cols f) c -> world_covered (fr_new resolution junk) [] false ops c = Gvd_spec.obstacle_after false gops c) /\
  ((forall o x, ~ In (WRemove o x) ops) -> existsb Gvd_spec.is_unset gops = false) /\
  forall P : dmap -> Prop, Gvd_spec.reaches top topv occ (gops ++ [GUpdateObstacles]) (fun st => P (g_obs st)) -> P (g_obs g).
Proof.
  intros U L.
  assert (Ua : forall ops f s m, world_used f s m (ops ++ [last]) -> world_used f s m ops /\
    world_used (world_frames f ops) (fold_left sized_step ops s) (fold_left made_step ops m) [last]).
  { clear. induction ops as [|x ops IH]; intros f s m H; [split; [exact I|exact H]|]. destruct H as [A B]. apply IH in B as [B C].
    split; [split; auto|]. exact C. }
  apply Ua in U as [U1 U2].
  destruct (wd_run_ok top topv Htop Htopv ops _ _ _ _ _ _ _ (winv_new top topv resolution junk) U1) as (k & w & gops & E & W & T).
  assert (Hs : fold_left sized_step ops false = true) by (destruct L as [-> | ->]; cbn in U2; intuition). rewrite Hs in *.
  destruct (wd_step_ok top topv Htop Htopv _ _ _ _ _ _ _ last W U2) as (k' & w' & m' & E' & W').
  assert (E2 : forall fuel, (Nat.max k k' <= fuel)%nat -> wd_run top topv fuel (wd_new resolution junk) (ops ++ [last]) = Ok w').
  { intros fuel Hf. assert (A : forall l w0, wd_run top topv fuel w0 (l ++ [last]) = do w1 <- wd_run top topv fuel w0 l; wd_step top topv fuel w1 last).
    { clear. induction l as [|x l IH]; intros w0; cbn; [now destruct (wd_step _ _ _ _ _)|]. destruct (wd_step top topv fuel w0 x); cbn; auto. }
    rewrite A, E by lia. cbn [bind]. apply E'. lia. }
  pose proof W as [_ _ _ (D1 & _ & D3 & D4 & D5 & _ & occ & g0 & g & k0 & G1 & G2 & G3 & G4)].
  assert (Wl : exists more, (more = [] \/ more = [GUpdateVoronoi]) /\ winv top topv w' (world_frames (fr_new resolution junk) ops)
     (world_registered [] ops) true (fold_left made_step ops false) (fun c => world_covered (fr_new resolution junk) [] false ops c) (gops ++ [GUpdateObstacles] ++ more)).
  { destruct L as [-> | ->]; [exists []|exists [GUpdateVoronoi]]; split; auto; exact W'. }
  destruct Wl as (more & Hm & [I1' _ _ (D1' & _ & D3' & _ & _ & _ & occ' & g0' & g' & k0' & G1' & G2' & G3' & G4')]).
  exists gops, occ', (Nat.max k k'), w', g'. split; auto. split; auto. cbn zeta. split; auto. split; auto. split; auto.
  assert (U' : Gvd_spec.well_used (fr_rows (world_frames (fr_new resolution junk) ops)) (fr_cols (world_frames (fr_new resolution junk) ops)) false (gops ++ [GUpdateObstacles]))
    by (rewrite app_assoc in D3'; apply well_used_app in D3'; apply D3').
  split; auto. split; auto. split.
  { intros N. destruct (existsb Gvd_spec.is_unset gops) eqn:Q; auto. destruct (T eq_refl) as [T'|(o & x & I)]; [discriminate|]. now apply N in I. }
  intros P (k2 & st0 & st & F0 & F & Pst). assert (st0 = g0') as -> by congruence.
  specialize (G4' (Nat.max k0' k2) ltac:(lia)). rewrite app_assoc, g_run_app, F in G4' by lia. cbn [bind] in G4'.
  assert (g_obs g' = g_obs st) as ->; auto. destruct Hm as [-> | ->]; [cbn in G4'; congruence|]. now apply update_keeps in G4'.
Qed.

End Agreement.

(** * The boundary of an obstacle that stays *)
Lemma draws_moved f p x c : draws (fr_set_position f p) x c = draws f x c.
Proof. unfold draws. now rewrite boundary_moved. Qed.

Lemma kept_moved f p o x ops : kept (fr_set_position f p) o x ops <-> kept f o x ops.
Proof.
  unfold kept. split; apply Forall_impl; intros [| |? ?|? x'| | |]; auto; intros [A B]; split; auto; intros c;
    [rewrite <- !(draws_moved f p)|rewrite !(draws_moved f p)]; apply B.
Qed.

Lemma kept_covered o x c ops : forall f reg, In o reg -> kept f o x ops -> draws f x c = true -> world_covered f reg true ops c = true.
Proof.
  induction ops as [|y ops IH]; intros f reg Hr Hk Hd; [reflexivity|]. inversion Hk as [|? ? Hy Hk']; subst. cbn [world_covered].
  destruct y as [p|wdt hgt|o' x'|o' x'| | |]; cbn [frames_after registered_step]; auto; try contradiction.
  - apply IH; auto; [now apply kept_moved|now rewrite draws_moved].
  - destruct (in_dec Nat.eq_dec o' reg); [now apply IH|]. rewrite orb_true_r. apply IH; auto. now right.
  - destruct Hy as [Hy1 Hy2]. assert (In o (remove Nat.eq_dec o' reg)) by (apply in_in_remove; auto).
    destruct (in_dec Nat.eq_dec o' reg); [|now apply IH]. rewrite (Hy2 c Hd). now apply IH.
Qed.

Lemma kept_frames o x ops : forall f, kept f o x ops -> exists g, f = fr_set_position (world_frames f ops) g.
Proof.
  induction ops as [|y ops IH]; intros f Hk; [exists (fr_local f); now destruct f|]. inversion Hk as [|? ? Hy Hk']; subst.
  change (world_frames f (y :: ops)) with (world_frames (frames_after f y) ops).
  destruct y as [p|wdt hgt|o' x'|o' x'| | |]; cbn [frames_after]; auto; [|contradiction].
  destruct (IH (fr_set_position f p)) as (g & E); [now apply kept_moved|]. exists (fr_local f).
  set (F := world_frames (fr_set_position f p) ops) in *. clearbody F. destruct f, F. unfold fr_set_position in *. cbn in *. injection E. intros. subst. reflexivity.
Qed.

Lemma world_frames_app f a b : world_frames f (a ++ b) = world_frames (world_frames f a) b.
Proof. apply fold_left_app. Qed.
Lemma world_covered_app c a b : forall f reg old, world_covered f reg old (a ++ b) c =
  world_covered (world_frames f a) (world_registered reg a) (world_covered f reg old a c) b c.
Proof. induction a as [|x a IH]; intros f reg old; [reflexivity|]. cbn [app world_covered]. apply IH. Qed.

(** The cells of the outline are covered until the end. *)
Lemma kept_outline f0 pre o x post : let F := world_frames f0 (pre ++ WAdd o x :: post) in
  0 < fr_res F -> ~ In o (world_registered [] pre) -> kept F o x post ->
  drawable (world_frames f0 pre) x -> forall q, on_obstacle x q -> off_border F q ->
  exists c, inside (fr_rows F) (fr_cols F) c /\ world_covered f0 [] false (pre ++ WAdd o x :: post) c = true /\ within (2 * fr_res F) q (cell_to_world F c).
Proof.
  intros F Hr Hn Hk (l & El) q (s & Es & Hq) Ho. set (f := world_frames f0 pre) in *.
  assert (EF : F = world_frames f post) by (unfold F; rewrite world_frames_app; reflexivity).
  assert (Hk' : kept f o x post).
  { assert (K : forall ops f1 G, (forall y c, draws f1 y c = draws G y c) -> kept G o x ops -> kept f1 o x ops).
    { clear. intros ops f1 G E. apply Forall_impl. intros [| |? ?|? x'| | |]; auto. intros [A B]. split; auto. intros c. rewrite !E. apply B. }
    assert (Hsz : Forall (fun y => match y with WSize _ _ => False | _ => True end) post).
    { revert Hk. clear. apply Forall_impl. intros [| | | | | |]; auto. }
    apply (K post f F); auto. rewrite EF. clear - Hsz. clearbody f. intros y c. revert f. induction Hsz as [|z ops Hz Hs IH]; intros f; [reflexivity|].
    change (world_frames f (z :: ops)) with (world_frames (frames_after f z) ops). rewrite <- IH. destruct z; try easy. cbn. now rewrite draws_moved. }
  destruct (kept_frames o x post f Hk') as (g & Ef). rewrite <- EF in Ef.
  assert (Hrf : fr_res f = fr_res F) by (rewrite Ef; reflexivity).
  unfold boundary_cells in El. rewrite Es in El. destruct (shape_followed f (ob_pose x) s ltac:(lra) l El) as [A _].
  destruct (A q Hq) as (c & Ic & Wc). { rewrite Ef. exact Ho. }
  exists c. pose proof (shape_inside _ _ _ _ El) as Hi. rewrite Forall_forall in Hi. specialize (Hi c Ic). split; [|split].
  - rewrite Ef in Hi. exact Hi.
  - rewrite world_covered_app. fold f. cbn [world_covered frames_after registered_step].
    destruct (in_dec Nat.eq_dec o (world_registered [] pre)); [contradiction|].
    assert (D : draws f x c = true) by (unfold draws, boundary_cells; rewrite Es, El; now apply existsb_cells). rewrite D. cbn [orb].
    apply (kept_covered o x); auto. now left.
  - rewrite Ef in Wc. exact Wc.
Qed.

Lemma within_distance d q c : 0 < d -> within d q c -> distance q c <= sqrt 2 * d.
Proof.
  intros Hd [A B]. unfold distance. replace (sqrt 2 * d) with (sqrt (2 * (d * d))).
  - apply sqrt_le_1_alt. apply Rabs_def2 in A, B. assert ((fst c - fst q) * (fst c - fst q) <= d * d) by nra.
    assert ((snd c - snd q) * (snd c - snd q) <= d * d) by nra. lra.
  - rewrite sqrt_mult_alt by lra. rewrite sqrt_square by lra. reflexivity.
Qed.

(** The largest error of the distance map (Gvd_opt_proofs). *)
Definition map_slack (f : frames) : R :=
  (sqrt (4 - 2 * sqrt 2) - 1) * reported_distance (fr_res f) ((fr_rows f - 1) * (fr_rows f - 1) + (fr_cols f - 1) * (fr_cols f - 1)).

Lemma drawable_at f0 pre o x post : forall s m, world_used f0 s m (pre ++ WAdd o x :: post) -> drawable (world_frames f0 pre) x.
Proof.
  revert f0. induction pre as [|y pre IH]; intros f0 s m H.
  - apply H.
  - destruct H as [_ H]. exact (IH _ _ _ H).
Qed.

Lemma frames_res f0 ops : fr_res (world_frames f0 ops) = fr_res f0.
Proof.
  revert f0. induction ops as [|y ops IH]; intros f0; [reflexivity|]. change (world_frames f0 (y :: ops)) with (world_frames (frames_after f0 y) ops).
  rewrite IH. destruct y; try reflexivity. cbn [frames_after]. destruct (fr_init f0 width height) as [f'| | |] eqn:E; auto.
  unfold fr_init in E. destruct (cast_int _) as [m| | |]; try discriminate. cbn [bind] in E. destruct (cast_int _) as [n| | |]; try discriminate. cbn [bind] in E.
  now injection E as <-.
Qed.

(** Paths accepted by the validator keep their distance from the outline of the obstacle. *)
Lemma validated_outline top topv resolution junk pre o x post last : Gvd_spec.priority top -> Gvd_spec.priority topv -> 0 < resolution ->
  let ops := pre ++ WAdd o x :: post in
  let F := world_frames (fr_new resolution junk) ops in
  world_used (fr_new resolution junk) false false (ops ++ [last]) -> updates last ->
  ~ In o (world_registered [] pre) -> kept F o x post ->
  exists k w g, (forall fuel, (k <= fuel)%nat -> wd_run top topv fuel (wd_new resolution junk) (ops ++ [last]) = Ok w) /\
    wd_dist w = Some g /\ wd_frames w = F /\
    forall lb ub minSafe minStep p fuel r, 0 < minStep -> 0 < p_length p -> unit_speed p ->
    is_path_valid F (map_clearance (g_obs g) resolution) lb ub minSafe minStep fuel p = Ok (true, r) ->
    forall q s y, on_obstacle x q -> off_border F q -> 0 <= s <= p_length p -> state_at p s y ->
    minSafe - minStep - sqrt 2 * resolution - map_slack F - sqrt 2 * (2 * resolution) <= distance (position y) q.
Proof.
  intros Ht Htv Hres ops F U L Hn Hk.
  assert (EF : fr_res F = resolution) by (unfold F; rewrite frames_res; reflexivity).
  destruct (world_updated top topv Ht Htv resolution junk ops last U L) as (gops & occ & k & w & g & E & Eg & Ew & Hp & Hz & Hu & Hc & _ & K).
  fold F in Ew, Hp, Hz, Hu, Hc. exists k, w, g. split; auto. split; auto. split; auto.
  intros lb ub minSafe minStep p fuel r Hm Hl Hs Ev q s y Hq Ho Hsy Hy.
  assert (Ud : drawable (world_frames (fr_new resolution junk) pre) x).
  { unfold ops in U. rewrite <- app_assoc in U. cbn [app] in U. eapply drawable_at; exact U. }
  destruct (kept_outline (fr_new resolution junk) pre o x post ltac:(fold ops F; lra) Hn Hk Ud q Hq Ho) as (c & Ic & Cc & Wc). fold ops F in Ic, Cc, Wc.
  pose proof (K (fun d => forall lb ub minSafe minStep p fuel r, 0 < minStep -> 0 < p_length p -> unit_speed p ->
    is_path_valid F (map_clearance d (fr_res F)) lb ub minSafe minStep fuel p = Ok (true, r) ->
    forall o, inside (fr_rows F) (fr_cols F) o -> Gvd_spec.obstacle gops o -> forall s x, 0 <= s <= p_length p -> state_at p s x ->
    minSafe - minStep - sqrt 2 * fr_res F
      - (sqrt (4 - 2 * sqrt 2) - 1) * reported_distance (fr_res F) ((fr_rows F - 1) * (fr_rows F - 1) + (fr_cols F - 1) * (fr_cols F - 1))
      <= distance (position x) (cell_to_world F o))) as KK. cbn beta in KK.
  specialize (KK (updated_map_clearance _ _ top topv occ gops F Hp Ht Htv Hz Hu eq_refl eq_refl ltac:(lra))).
  rewrite EF in KK. specialize (KK lb ub minSafe minStep p fuel r Hm Hl Hs Ev c Ic). unfold Gvd_spec.obstacle in KK. rewrite <- (Hc c Ic) in KK.
  specialize (KK Cc s y Hsy Hy). rewrite EF in Wc. apply within_distance in Wc; [|lra].
  pose proof (distance_triangle (position y) q (cell_to_world F c)). unfold map_slack. rewrite EF. lra.
Qed.
