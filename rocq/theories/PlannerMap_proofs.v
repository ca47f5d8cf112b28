(** The planner and a map that takes a new size. *)
From Coq Require Import Reals Lra.
From Verif Require Import Base RealBase Grid_model Grid_spec Grid_proofs Coords_model Coords_proofs Pose_model Pose_spec Pose_proofs StateSpace_model Straight_model Straight_spec Straight_proofs
  ObstacleMap_model Shape_model Shape_spec Gvd_model Gvd_api_proofs PathCost_model Validator_model Validator_spec Validator_proofs
  World_model World_spec World_proofs WorldClear_proofs Hybrid_model Planner_model Planner_spec Planner_proofs.
From Verif Require Gvd_spec.
From Coq Require Import ZifyBool ZifyNat ZifyN.
Local Open Scope R_scope.

(** * The calls that reach the map *)
Lemma resize_calls a x b : resizes x -> exists width height ready, history (a ++ x :: b) = history a ++ WSize width height :: map_calls ready false b /\
  history (a ++ [x]) = history a ++ [WSize width height].
Proof.
  intros H. unfold history. destruct (map_calls_app a (x :: b) false false) as (r & k & ->). destruct (map_calls_app a [x] false false) as (r' & k' & ->).
  destruct x as [[]| | | | | | | | |]; try easy; cbn [map_calls]; eauto 10.
Qed.

Lemma run_history top topv fuel Rng draw resolution junk m rng l s : sy_run top topv fuel Rng draw (sy_new Rng resolution junk m rng) l = Ok s ->
  wd_run top topv fuel (wd_new resolution junk) (history l) = Ok (sy_world s).
Proof. intros E. exact (proj1 (run_calls top topv fuel Rng draw l _ _ _ _ (new_flags Rng resolution junk m rng) E)). Qed.

(** What C75 says of the map of the planner. *)
Lemma planner_map top topv : Gvd_spec.priority top -> Gvd_spec.priority topv -> forall fuel Rng draw resolution junk m rng l s,
  sy_run top topv fuel Rng draw (sy_new Rng resolution junk m rng) l = Ok s -> world_used (fr_new resolution junk) false false (history l) -> has_size (history l) ->
  exists g, wd_dist (sy_world s) = Some g /\ wd_frames (sy_world s) = world_frames (fr_new resolution junk) (history l) /\
  forall c, inside (fr_rows (wd_frames (sy_world s))) (fr_cols (wd_frames (sy_world s))) c ->
    om_occupied (wd_map (sy_world s)) c = Ok (world_covered (fr_new resolution junk) [] false (history l) c) /\
    (nearest_obstacle (g_obs g) c = Ok c <-> world_covered (fr_new resolution junk) [] false (history l) c = true).
Proof.
  intros Ht Htv fuel Rng draw resolution junk m rng l s E U H. apply run_history in E. destruct (world_agrees top topv Ht Htv resolution junk _ U H) as (k & w & g & Ew & Eg & Ef & A).
  apply (wd_run_more _ _ _ (Nat.max k fuel)) in E; [|lia]. rewrite Ew in E by lia. injection E as ->. eauto.
Qed.

(** * A new size clears the map *)
Lemma covered_size f reg old ops width height c : world_covered f reg old (ops ++ [WSize width height]) c = false.
Proof. rewrite world_covered_app. reflexivity. Qed.

Lemma has_size_app a width height b : has_size (a ++ WSize width height :: b).
Proof. unfold has_size. apply Exists_app. right. now left. Qed.

Lemma resize_clears top topv : Gvd_spec.priority top -> Gvd_spec.priority topv -> forall fuel Rng draw resolution junk m rng l x s, resizes x ->
  sy_run top topv fuel Rng draw (sy_new Rng resolution junk m rng) (l ++ [x]) = Ok s -> world_used (fr_new resolution junk) false false (history (l ++ [x])) ->
  forall c, inside (fr_rows (wd_frames (sy_world s))) (fr_cols (wd_frames (sy_world s))) c -> om_occupied (wd_map (sy_world s)) c = Ok false.
Proof.
  intros Ht Htv fuel Rng draw resolution junk m rng l x s Hx E U c Hc. destruct (resize_calls l x [] Hx) as (wd & ht & r & _ & Eh). rewrite Eh in *.
  destruct (planner_map top topv Ht Htv _ _ _ _ _ _ _ _ _ E) as (g & _ & _ & A); [now rewrite Eh|rewrite Eh; apply has_size_app|]. rewrite (proj1 (A c Hc)). rewrite Eh. now rewrite covered_size.
Qed.

Lemma registered_size a width height : world_registered [] (a ++ [WSize width height]) = world_registered [] a.
Proof. unfold world_registered. now rewrite fold_left_app. Qed.

Lemma resize_forgets top topv : Gvd_spec.priority top -> Gvd_spec.priority topv -> forall fuel Rng draw resolution junk m rng l x o y s, resizes x ->
  In o (world_registered [] (history l)) ->
  sy_run top topv fuel Rng draw (sy_new Rng resolution junk m rng) (l ++ [x; PMap (WAdd o y)]) = Ok s -> world_used (fr_new resolution junk) false false (history (l ++ [x; PMap (WAdd o y)])) ->
  forall c, inside (fr_rows (wd_frames (sy_world s))) (fr_cols (wd_frames (sy_world s))) c -> om_occupied (wd_map (sy_world s)) c = Ok false.
Proof.
  intros Ht Htv fuel Rng draw resolution junk m rng l x o y s Hx Ho E U c Hc. destruct (resize_calls l x [PMap (WAdd o y)] Hx) as (wd & ht & r & Eh & _). cbn [map_calls] in Eh.
  destruct (planner_map top topv Ht Htv _ _ _ _ _ _ _ _ _ E U) as (g & _ & _ & A); [rewrite Eh; apply has_size_app|]. rewrite (proj1 (A c Hc)). rewrite Eh. f_equal.
  change (history l ++ [WSize wd ht; WAdd o y]) with (history l ++ [WSize wd ht] ++ [WAdd o y]). rewrite app_assoc, world_covered_app, covered_size. cbn [world_covered].
  fold (world_registered [] (history l ++ [WSize wd ht])). rewrite registered_size. destruct (in_dec Nat.eq_dec o _); [reflexivity|contradiction].
Qed.

(** Obstacles added later, that are not on the map yet, are drawn. *)
Lemma added_later top topv : Gvd_spec.priority top -> Gvd_spec.priority topv -> forall fuel Rng draw resolution junk m rng l s pre o y post,
  sy_run top topv fuel Rng draw (sy_new Rng resolution junk m rng) l = Ok s -> world_used (fr_new resolution junk) false false (history l) ->
  history l = pre ++ WAdd o y :: post -> ~ In o (world_registered [] pre) -> kept (wd_frames (sy_world s)) o y post ->
  forall c, inside (fr_rows (wd_frames (sy_world s))) (fr_cols (wd_frames (sy_world s))) c -> draws (wd_frames (sy_world s)) y c = true -> om_occupied (wd_map (sy_world s)) c = Ok true.
Proof.
  intros Ht Htv fuel Rng draw resolution junk m rng l s pre o y post E U Eh N K c Hc D.
  assert (Hs : has_size (history l)).
  { assert (Q : forall ops f sz md, world_used f sz md (ops ++ WAdd o y :: post) -> sz = true \/ has_size ops).
    { induction ops as [|z ops IH]; intros f sz md Hu; [left; apply Hu|]. destruct Hu as [Hz Hu]. destruct z; try (right; now left); destruct (IH _ _ _ Hu) as [Q|Q]; auto; right; now right. }
    rewrite Eh in *. destruct (Q _ _ _ _ U) as [|Q']; [discriminate|]. apply Exists_app. now left. }
  destruct (planner_map top topv Ht Htv _ _ _ _ _ _ _ _ _ E U Hs) as (g & _ & Ef & A). rewrite (proj1 (A c Hc)). f_equal. rewrite Ef in K, D.
  pose proof (kept_outline (fr_new resolution junk) pre o y post) as _.
  rewrite Eh in *. rewrite world_covered_app. cbn [world_covered frames_after registered_step]. fold (world_registered [] pre). destruct (in_dec Nat.eq_dec o (world_registered [] pre)); [contradiction|].
  fold (world_frames (fr_new resolution junk) pre). rewrite world_frames_app in K, D. cbn [world_frames fold_left frames_after] in K, D. fold (world_frames (world_frames (fr_new resolution junk) pre) post) in K, D.
  assert (exists p, world_frames (world_frames (fr_new resolution junk) pre) post = fr_set_position (world_frames (fr_new resolution junk) pre) p \/ world_frames (world_frames (fr_new resolution junk) pre) post = world_frames (fr_new resolution junk) pre) as (p & Hp).
  { clear - K. set (f := world_frames (fr_new resolution junk) pre) in *. clearbody f.
    assert (Q : forall F, kept F o y post -> forall f, exists p, world_frames f post = fr_set_position f p \/ world_frames f post = f).
    { clear. intros F HK. induction post as [|z r IH]; intros f'; [exists (0, 0); now right|]. inversion HK as [|? ? H1 H2]; subst. destruct z; try easy; cbn [world_frames fold_left frames_after]; try apply (IH H2).
      destruct (IH H2 (fr_set_position f' p)) as (q & [Q|Q]); unfold world_frames in Q; [exists q|exists p]; left; exact Q. }
    exact (Q _ K f). }
  assert (D' : draws (world_frames (fr_new resolution junk) pre) y c = true) by (destruct Hp as [Hp|Hp]; rewrite Hp in D; rewrite ?draws_moved in D; exact D).
  rewrite D'. cbn [orb]. apply kept_covered with (o := o) (x := y); auto; [now left|]. destruct Hp as [Hp|Hp]; rewrite Hp in K; [apply kept_moved in K|]; exact K.
Qed.

(** * Without updates, the distance map knows only the cells of the obstacles *)
Definition is_update (o : gop) : bool := match o with GUpdateObstacles | GUpdateVoronoi => true | _ => false end.
Definition stale (R C : Z) (m : dmap) : Prop :=
  gwf (d_grid m) /\ rows (d_grid m) = R /\ columns (d_grid m) = C /\ forall c, inside R C c -> exists i, cur m c = Ok i /\ (i_dist i = inf /\ i_obst i = no_cell \/ i_dist i = 0%Z /\ i_obst i = c).

Lemma put_stale R C m c i m' : stale R C m -> inside R C c -> i_dist i = inf /\ i_obst i = no_cell \/ i_dist i = 0%Z /\ i_obst i = c -> put m c i = Ok m' -> stale R C m'.
Proof.
  intros (G & Hr & Hc & H) Ic Hi E. unfold put in E. rewrite <- Hr, <- Hc in Ic. destruct (grid_set_spec (d_grid m) c i G Ic) as (g' & Eg & G' & Hr' & Hc' & Q). rewrite Eg in E. cbn [bind] in E. injection E as <-.
  unfold stale. cbn [d_grid]. split; [exact G'|]. split; [congruence|]. split; [congruence|]. intros d Id. unfold cur. cbn [d_grid]. rewrite Q by congruence.
  destruct (cell_eqb c d) eqn:X; [apply cell_eqb_eq in X as ->; eauto|]. apply H. congruence.
Qed.

Lemma step_stale top topv fuel R C made st o st' : stale R C (g_obs st) -> Gvd_spec.well_used R C made [o] -> is_update o = false -> g_step top topv fuel st o = Ok st' -> stale R C (g_obs st').
Proof.
  intros S [U _] N E. destruct o; try discriminate; cbn [g_step] in E.
  - unfold set_cell in E. destruct (cur (g_obs st) c) as [i| | |]; try discriminate. cbn [bind] in E. destruct (put (g_obs st) c _) as [m1| | |] eqn:P; try discriminate. cbn [bind] in E. injection E as <-. cbn [g_obs push].
    apply (put_stale R C) in P; auto.
  - unfold unset_cell in E. destruct (put (g_obs st) c _) as [m1| | |] eqn:P; try discriminate. cbn [bind] in E. injection E as <-. cbn [g_obs push]. apply (put_stale R C) in P; auto.
  - destruct (g_vor st); [now injection E as <-|]. destruct (dm_new _ _); try discriminate. cbn [bind] in E. now injection E as <-.
  - unfold on_voronoi in E. destruct (g_vor st); try discriminate. destruct (set_cell _ _); try discriminate. cbn [bind] in E. now injection E as <-.
  - unfold on_voronoi in E. destruct (g_vor st); try discriminate. destruct (unset_cell _ _); try discriminate. cbn [bind] in E. now injection E as <-.
  - now injection E as <-.
Qed.

Lemma run_stale top topv fuel R C ops : forall made st st', stale R C (g_obs st) -> Gvd_spec.well_used R C made ops -> existsb is_update ops = false -> g_run top topv fuel st ops = Ok st' -> stale R C (g_obs st').
Proof.
  unfold g_run. induction ops as [|o ops IH]; intros made st st' S U N E; cbn [fold_res] in E; [now injection E as <-|].
  destruct (g_step top topv fuel st o) as [st1| | |] eqn:E1; try discriminate. cbn [bind] in E. cbn [existsb] in N. apply orb_false_iff in N as [N1 N2]. destruct U as [U1 U2].
  refine (IH _ st1 st' _ U2 N2 E). apply (step_stale top topv fuel R C made st o st1 S); auto. split; [exact U1|exact I].
Qed.

Lemma new_stale occ st : g_new occ = Ok st -> stale (rows occ) (columns occ) (g_obs st).
Proof.
  unfold g_new, dm_new. destruct (grid_new (rows occ) (columns occ) (Info inf no_cell false false)) as [g| | |] eqn:E; try discriminate. cbn [bind]. intros H. injection H as <-. cbn [g_obs].
  destruct (grid_new_wf _ _ _ _ E) as (G & Hr & Hc). split; [exact G|]. split; [exact Hr|]. split; [exact Hc|]. intros c Ic. exists (Info inf no_cell false false). split; [|now left]. unfold cur. cbn [d_grid]. eapply grid_new_get; eauto.
Qed.

Section Stale.
Variables top topv : nat -> list (cell * Z) -> nat.
Hypothesis Htop : Gvd_spec.priority top.
Hypothesis Htopv : Gvd_spec.priority topv.

Definition calm (x : wop) : Prop := match x with WSize _ _ | WUpdate | WGvdUpdate => False | _ => True end.

Lemma calls_calm f reg x m : calm x -> existsb is_update (calls f reg x m) = false.
Proof.
  assert (K : forall (h : cell -> gop) l, (forall c, is_update (h c) = false) -> existsb is_update (map h l ++ occ_change m) = false).
  { intros h l H. unfold occ_change. induction l as [|c l IH]; cbn; [destruct (om_matrix m); reflexivity|]. now rewrite H. }
  destruct x; try easy; cbn [calls]; intros _; destruct (in_dec _ _ _); auto; destruct (boundary_cells f x); auto; apply K; reflexivity.
Qed.

Lemma wd_run_calm ops : forall w f reg sized made cov gops, winv top topv w f reg sized made cov gops -> world_used f sized made ops -> Forall calm ops -> existsb is_update gops = false ->
  exists k w' gops', (forall fuel, (k <= fuel)%nat -> wd_run top topv fuel w ops = Ok w') /\
    winv top topv w' (world_frames f ops) (world_registered reg ops) (fold_left sized_step ops sized) (fold_left made_step ops made)
      (fun c => world_covered f reg (cov c) ops c) gops' /\ existsb is_update gops' = false.
Proof.
  induction ops as [|x ops IH]; intros w f reg sized made cov gops W U Q N.
  - exists O, w, gops. split; [reflexivity|]. split; [exact W|auto].
  - destruct U as [U1 U2]. inversion Q as [|? ? Q1 Q2]; subst. destruct (wd_step_ok top topv Htop Htopv w f reg sized made cov gops x W (conj U1 I)) as (k1 & w1 & m & E1 & W1).
    assert (N1 : existsb is_update (match x with WSize _ _ => [] | _ => gops ++ calls f reg x m end) = false).
    { assert (existsb is_update (gops ++ calls f reg x m) = false) by (rewrite existsb_app, N; now apply calls_calm). destruct x; auto. }
    destruct (IH _ _ _ _ _ _ _ W1 U2 Q2 N1) as (k2 & w2 & gops2 & E2 & W2 & T2). exists (Nat.max k1 k2), w2, gops2. split; [|split; auto].
    intros fuel Hf. cbn [wd_run]. rewrite E1 by lia. cbn [bind]. apply E2. lia.
Qed.

Lemma world_stale resolution junk pre width height post : Forall calm post -> world_used (fr_new resolution junk) false false (pre ++ WSize width height :: post) ->
  exists k w g, (forall fuel, (k <= fuel)%nat -> wd_run top topv fuel (wd_new resolution junk) (pre ++ WSize width height :: post) = Ok w) /\ wd_dist w = Some g /\
  forall c, inside (fr_rows (wd_frames w)) (fr_cols (wd_frames w)) c ->
    squared_distance_to_obstacle (g_obs g) c = Ok (if world_covered (fr_new resolution junk) [] false (pre ++ WSize width height :: post) c then 0%Z else inf).
Proof.
  intros Q U. assert (U' : exists s m, world_used (fr_new resolution junk) false false pre /\ world_used (world_frames (fr_new resolution junk) pre) s m (WSize width height :: post) /\ s = fold_left sized_step pre false /\ m = fold_left made_step pre false).
  { clear Q. assert (K : forall a b f s m, world_used f s m (a ++ b) -> world_used f s m a /\ world_used (world_frames f a) (fold_left sized_step a s) (fold_left made_step a m) b).
    { induction a as [|x a IH]; intros b f s m H; [split; [exact I|exact H]|]. destruct H as [A B]. apply IH in B as [B1 B2]. split; [split; auto|]. exact B2. }
    destruct (K _ _ _ _ _ U) as [K1 K2]. eauto 10. }
  destruct U' as (s & m & U1 & U2 & -> & ->).
  destruct (wd_run_ok top topv Htop Htopv pre _ _ _ _ _ _ _ (winv_new top topv resolution junk) U1) as (k1 & w1 & gops1 & E1 & W1 & _).
  destruct U2 as [U2 U3]. destruct (wd_step_ok top topv Htop Htopv _ _ _ _ _ _ _ (WSize width height) W1 (conj U2 I)) as (k2 & w2 & m' & E2 & W2).
  destruct (wd_run_calm post _ _ _ _ _ _ _ W2 U3 Q eq_refl) as (k3 & w3 & gops3 & E3 & W3 & N3). rewrite sized_true in W3.
  destruct (winv_agrees top topv Htop Htopv _ _ _ _ _ _ W3) as (g & Eg & A). pose proof W3 as [I1 _ _ (D1 & D2 & D3 & D4 & D5 & D6 & occ & g0 & g' & k & G1 & G2 & G3 & G4)].
  assert (g' = g) as -> by congruence.
  assert (Hk : exists n, (k1 <= n /\ k2 <= n /\ k3 <= n)%nat) by (exists (k1 + k2 + k3)%nat; lia). destruct Hk as (n & Hn). exists n, w3, g. split; [|split; [exact Eg|]].
  { intros fuel Hf. rewrite wd_run_app, E1 by lia. cbn [bind wd_run]. rewrite E2 by lia. cbn [bind]. apply E3. lia. }
  rewrite I1. intros c Hc. specialize (A c Hc) as [_ A]. rewrite world_covered_app. cbn [world_covered].
  assert (S : stale (fr_rows (wd_frames w3)) (fr_cols (wd_frames w3)) (g_obs g)).
  { destruct G2 as (R1 & R2 & R3). rewrite I1. eapply (run_stale top topv k); [|exact D3|exact N3|apply G4; lia]. rewrite <- R1, <- R2. now apply new_stale. }
  destruct S as (_ & _ & _ & S). rewrite I1 in S. destruct (S c Hc) as (i & Ei & Hi). unfold squared_distance_to_obstacle, nearest_obstacle in *. rewrite Ei in *. cbn [bind rmap] in *.
  unfold world_registered, world_frames in *. cbn [cov_step] in *.
  destruct Hi as [[Hi Ho]|[Hi Ho]]; rewrite Hi, Ho in *.
  - match goal with |- context [if ?b then _ else _] => destruct b eqn:X end; [|reflexivity]. exfalso. pose proof (proj2 A eq_refl) as Y. assert (no_cell = c) as <- by congruence. unfold inside, no_cell in Hc. cbn in Hc. lia.
  - rewrite (proj1 A eq_refl). reflexivity.
Qed.
End Stale.

Lemma calm_calls b : only_searched b -> forall ready, Forall calm (map_calls ready false b).
Proof.
  induction 1 as [|x b Hx Hb IH]; intros r; [constructor|]. destruct x as [[]| | | |[]| | | | |]; try easy; cbn [map_calls]; auto; try (constructor; [exact I|apply IH]). rewrite andb_false_r. apply IH.
Qed.

(** After the map took a new size, the searches of the planner do not update its distance map: cells next to an obstacle count as
    infinitely far from it. *)
Lemma resized_stale top topv : Gvd_spec.priority top -> Gvd_spec.priority topv -> forall fuel Rng draw resolution junk m rng a x b s, resizes x -> only_searched b ->
  sy_run top topv fuel Rng draw (sy_new Rng resolution junk m rng) (a ++ x :: b) = Ok s -> world_used (fr_new resolution junk) false false (history (a ++ x :: b)) ->
  exists g, wd_dist (sy_world s) = Some g /\
  forall c, inside (fr_rows (wd_frames (sy_world s))) (fr_cols (wd_frames (sy_world s))) c -> om_occupied (wd_map (sy_world s)) c = Ok false ->
    squared_distance_to_obstacle (g_obs g) c = Ok inf.
Proof.
  intros Ht Htv fuel Rng draw resolution junk m rng a x b s Hx Hb E U. destruct (resize_calls a x b Hx) as (wd & ht & r & Eh & _).
  destruct (planner_map top topv Ht Htv _ _ _ _ _ _ _ _ _ E U) as (g & Eg & _ & A); [rewrite Eh; apply has_size_app|].
  rewrite Eh in U. destruct (world_stale top topv Ht Htv resolution junk _ _ _ _ (calm_calls b Hb r) U) as (k & w & g' & Ew & Eg' & S).
  apply run_history in E. rewrite Eh in E. apply (wd_run_more _ _ _ (Nat.max k fuel)) in E; [|lia]. rewrite Ew in E by lia. injection E as ->. assert (g' = g) as -> by congruence.
  exists g. split; [exact Eg|]. intros c Hc O. rewrite S by auto. rewrite (proj1 (A c Hc)), Eh in O. injection O as ->. reflexivity.
Qed.

(** States there are accepted. *)
Lemma stale_accepts f g lb ub minSafe q c : 0 < fr_res f -> minSafe <= 46340 * fr_res f ->
  world_to_cell f (position q) true = Ok c -> inside_cell f c = true -> se2_validate lb ub (mk_pose (fst (world_to_local f (position q))) (snd (world_to_local f (position q))) (pth q)) = true ->
  squared_distance_to_obstacle (g_obs g) c = Ok inf -> is_state_valid f (map_clearance (g_obs g) (fr_res f)) lb ub minSafe q = Ok true.
Proof.
  intros Hf Hs Ec Ic V D. unfold is_state_valid. rewrite Ec. cbn [bind]. rewrite V, Ic. cbn [negb orb]. unfold map_clearance. rewrite D. cbn [rmap bind]. unfold reported_distance.
  assert (46340 <= sqrt (IZR inf)). { rewrite <- (sqrt_square 46340) by lra. apply sqrt_le_1_alt. unfold inf. lra. }
  destruct (Rleb_spec minSafe (sqrt (IZR inf) * fr_res f)); [reflexivity|exfalso; nra].
Qed.

(** * Histories of a map and its validators only *)
Lemma mapping_run top topv fuel Rng draw l : Forall (fun x => match x with PMap _ | PValidator _ _ => True | _ => False end) l -> forall s r k w, wd_run top topv fuel (sy_world s) (map_calls r k l) = Ok w ->
  exists s', sy_run top topv fuel Rng draw s l = Ok s' /\ sy_world s' = w.
Proof.
  induction 1 as [|x l Hx Hl IH]; intros s r k w E; [cbn in E; injection E as <-; exists s; auto|].
  destruct x as [x|lo up| | | | | | | |]; try easy.
  - assert (exists k', map_calls r k (PMap x :: l) = x :: map_calls r k' l) as (k' & Ek) by (destruct x; cbn [map_calls]; eauto). rewrite Ek in E. cbn [wd_run] in E. cbn [sy_run sy_step].
    destruct (wd_step top topv fuel (sy_world s) x) as [w1| | |]; try discriminate. cbn [bind] in *. apply (IH (System w1 _ _ _) _ _ _ E).
  - cbn [map_calls wd_run wd_step] in E. cbn [sy_run sy_step]. unfold sy_validator. destruct (wd_size _ _ _) as [w1| | |]; try discriminate. cbn [bind] in *. apply (IH (System w1 _ _ _) _ _ _ E).
Qed.
