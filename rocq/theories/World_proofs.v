(** The occupancy matrix and the distance map of an obstacle list, after any history of calls. *)
From Coq Require Import Reals Lra.
From Verif Require Import Base RealBase Grid_model Grid_spec Grid_proofs Coords_model Coords_proofs Pose_model Shape_model Shape_spec Outline_proofs
  ObstacleMap_model ObstacleMap_proofs Gvd_model Gvd_proofs Gvd_api_proofs World_model World_spec.
From Verif Require ObstacleMap_spec Gvd_spec.
From Coq Require Import ZifyBool ZifyNat ZifyN.
Local Open Scope Z_scope.

(** * The position does not matter to the boundary *)
Lemma map_res_ext {A B} (g h : A -> res B) l : (forall a, g a = h a) -> map_res g l = map_res h l.
Proof. intros E. induction l as [|a l IH]; cbn [map_res]; [reflexivity|]. now rewrite E, IH. Qed.

Lemma shape_cells_moved f p q s : shape_cells (fr_set_position f q) p s = shape_cells f p s.
Proof.
  induction s as [vs|cs IH] using shape_rect'; cbn [shape_cells].
  - rewrite (map_res_ext _ (fun v => world_to_cell f v false)); [reflexivity|]. reflexivity.
  - induction IH as [|c r Hc _ IHr]; [reflexivity|]. rewrite Hc. destruct (shape_cells f p c); cbn [bind]; auto. now rewrite IHr.
Qed.
Lemma boundary_moved f q x : boundary_cells (fr_set_position f q) x = boundary_cells f x.
Proof. unfold boundary_cells. destruct (ob_shape x); auto. apply shape_cells_moved. Qed.

Lemma boundary_inside f x l : boundary_cells f x = Ok l -> Forall (inside (fr_rows f) (fr_cols f)) l.
Proof. unfold boundary_cells. destruct (ob_shape x); [|discriminate]. apply shape_inside. Qed.

(** * Calls on the distance map *)
Definition made_after (made : bool) (ops : list gop) : bool := fold_left (fun m o => match o with GVoronoi => true | _ => m end) ops made.

Lemma well_used_app R C a b : forall made, Gvd_spec.well_used R C made (a ++ b) <-> Gvd_spec.well_used R C made a /\ Gvd_spec.well_used R C (made_after made a) b.
Proof.
  induction a as [|o a IH]; intros made; cbn [app]; [cbn; tauto|]. cbn [Gvd_spec.well_used]. unfold made_after in *. cbn [fold_left].
  rewrite IH. destruct o; tauto.
Qed.

Lemma made_after_app made a b : made_after made (a ++ b) = made_after (made_after made a) b.
Proof. unfold made_after. apply fold_left_app. Qed.

Lemma made_sets made (h : cell -> gop) l : (forall c, h c <> GVoronoi) -> made_after made (map h l) = made.
Proof.
  intros H. unfold made_after. revert made. induction l as [|c l IH]; intros made; cbn; auto. specialize (H c). destruct (h c); try congruence; apply IH.
Qed.

Lemma obstacle_after_app a b c : forall old, Gvd_spec.obstacle_after old (a ++ b) c = Gvd_spec.obstacle_after (Gvd_spec.obstacle_after old a c) b c.
Proof. induction a as [|o a IH]; intros old; cbn; auto. destruct o; apply IH. Qed.

Lemma cell_eqb_sym a b : cell_eqb a b = cell_eqb b a.
Proof. unfold cell_eqb. now rewrite (Z.eqb_sym (row a)), (Z.eqb_sym (col a)). Qed.

Lemma obstacle_sets c l : forall old, Gvd_spec.obstacle_after old (map GSet l) c = existsb (cell_eqb c) l || old.
Proof.
  induction l as [|d l IH]; intros old; cbn [map Gvd_spec.obstacle_after existsb]; auto. rewrite IH, (cell_eqb_sym d c).
  destruct (cell_eqb c d), (existsb _ l), old; reflexivity.
Qed.
Lemma obstacle_unsets c l : forall old, Gvd_spec.obstacle_after old (map GUnset l) c = negb (existsb (cell_eqb c) l) && old.
Proof.
  induction l as [|d l IH]; intros old; cbn [map Gvd_spec.obstacle_after existsb]; auto. rewrite IH, (cell_eqb_sym d c).
  destruct (cell_eqb c d), (existsb _ l), old; reflexivity.
Qed.
Lemma obstacle_occ c m old : Gvd_spec.obstacle_after old (occ_change m) c = old.
Proof. unfold occ_change. destruct (om_matrix m); reflexivity. Qed.
Lemma made_occ m b : made_after b (occ_change m) = b.
Proof. unfold occ_change. destruct (om_matrix m); reflexivity. Qed.

Section Run.
Variables top topv : nat -> list (cell * Z) -> nat.
Hypothesis Htop : Gvd_spec.priority top.
Hypothesis Htopv : Gvd_spec.priority topv.

(** What holds between two calls: [gops] are the calls received by the distance map since it was created for the current size. *)
Record winv (w : world) (f : frames) (reg : list nat) (sized made : bool) (cov : cell -> bool) (gops : list gop) : Prop := {
  wi_frames : wd_frames w = f;
  wi_oinv : oinv (wd_map w);
  wi_reg : reg_ok (wd_map w) reg;
  wi_dist : if sized then
      Gvd_spec.representable (fr_rows f) (fr_cols f) /\
      size_ok (wd_map w) (Some (fr_rows f, fr_cols f)) /\
      Gvd_spec.well_used (fr_rows f) (fr_cols f) false gops /\
      made_after false gops = made /\
      (forall c, inside (fr_rows f) (fr_cols f) c -> cov c = Gvd_spec.obstacle_after false gops c) /\
      (forall c, mark_ok (wd_map w) c (if cov c then Some O else None)) /\
      exists occ g0 g k, wd_dist w = Some g /\ Gvd_spec.sized (fr_rows f) (fr_cols f) occ /\ g_new occ = Ok g0 /\
        forall fuel, (k <= fuel)%nat -> g_run top topv fuel g0 gops = Ok g
    else om_matrix (wd_map w) = None /\ wd_dist w = None /\ made = false /\ forall c, cov c = false
}.

(** The distance map takes further calls. *)
Lemma further R C occ g0 g k gops more : Gvd_spec.representable R C -> Gvd_spec.sized R C occ -> g_new occ = Ok g0 ->
  (forall fuel, (k <= fuel)%nat -> g_run top topv fuel g0 gops = Ok g) -> Gvd_spec.well_used R C false (gops ++ more) ->
  exists k' g', (forall fuel, (k' <= fuel)%nat -> g_run top topv fuel g more = Ok g') /\
                (forall fuel, (k' <= fuel)%nat -> g_run top topv fuel g0 (gops ++ more) = Ok g').
Proof.
  intros Hs Hz E0 E U. destruct (api_consistent R C Hs top topv Htop Htopv occ Hz _ U) as (k1 & st0 & st & E0' & E' & _).
  assert (st0 = g0) as -> by congruence. exists (Nat.max k k1), st. split; intros fuel Hf; [|apply E'; lia].
  specialize (E' fuel ltac:(lia)). rewrite g_run_app, E in E' by lia. exact E'.
Qed.

Lemma sized_matrix m R C g : size_ok m (Some (R, C)) -> om_matrix m = Some g -> Gvd_spec.sized R C g.
Proof.
  unfold size_ok. intros H E. rewrite E in H. destruct H as ((A & B & D) & <- & <-). split; auto. split; auto. lia.
Qed.

Lemma mark_same m c a b : mark_ok m c a -> (a <> None <-> b <> None) -> mark_ok m c b.
Proof.
  unfold mark_ok. destruct (om_matrix m) as [g|]; auto. intros H E Hc. destruct (H Hc) as (v & A & B). exists v. split; auto. tauto.
Qed.

Lemma wd_call_step w f reg made cov gops more cov' m : winv w f reg true made cov gops ->
  oinv m -> forall reg', reg_ok m reg' -> size_ok m (Some (fr_rows f, fr_cols f)) ->
  Gvd_spec.well_used (fr_rows f) (fr_cols f) made more ->
  (forall c, inside (fr_rows f) (fr_cols f) c -> cov' c = Gvd_spec.obstacle_after (cov c) more c) ->
  (forall c, mark_ok m c (if cov' c then Some O else None)) ->
  exists k w', (forall fuel, (k <= fuel)%nat -> wd_call top topv fuel (World (wd_frames w) m (wd_dist w)) more = Ok w') /\
    winv w' f reg' true (made_after made more) cov' (gops ++ more).
Proof.
  intros [I1 I2 I3 (D1 & D2 & D3 & D4 & D5 & D6 & occ & g0 & g & k & G1 & G2 & G3 & G4)] Hi reg' Hr Hs Hu Hc Hm.
  assert (U : Gvd_spec.well_used (fr_rows f) (fr_cols f) false (gops ++ more)) by (apply well_used_app; rewrite D4; auto).
  destruct (further _ _ _ _ _ _ _ more D1 G2 G3 G4 U) as (k' & g' & A & B).
  exists k', (World (wd_frames w) m (Some g')). split.
  - intros fuel Hf. unfold wd_call. cbn [wd_dist wd_frames wd_map]. rewrite G1, A by lia. reflexivity.
  - constructor; cbn [wd_frames wd_map wd_dist]; auto. split; auto. split; auto. split; auto. split; [rewrite made_after_app; congruence|].
    split; [|split; auto].
    + intros c Ic. rewrite obstacle_after_app, <- D5 by auto. auto.
    + exists occ, g0, g', k'. auto.
Qed.

Lemma winv_world w f reg made cov gops : winv w f reg true made cov gops -> World (wd_frames w) (wd_map w) (wd_dist w) = w.
Proof. now destruct w. Qed.

Definition calls (f : frames) (reg : list nat) (x : wop) (m : omap) : list gop :=
  match x with
  | WAdd o x => if in_dec Nat.eq_dec o reg then [] else match boundary_cells f x with Ok l => map GSet l ++ occ_change m | _ => [] end
  | WRemove o x => if in_dec Nat.eq_dec o reg then match boundary_cells f x with Ok l => map GUnset l ++ occ_change m | _ => [] end else []
  | WUpdate => [GUpdateObstacles]
  | WGvd => [GVoronoi]
  | WGvdUpdate => [GUpdateObstacles; GUpdateVoronoi]
  | _ => []
  end.

Lemma calls_unset f reg x m : existsb Gvd_spec.is_unset (calls f reg x m) = true -> exists o y, x = WRemove o y.
Proof.
  assert (K : forall l, existsb Gvd_spec.is_unset (map GSet l ++ occ_change m) = true -> False).
  { intros l. unfold occ_change. induction l as [|c l IH]; cbn; [destruct (om_matrix m); discriminate|exact IH]. }
  destruct x; cbn; try discriminate; eauto. destruct (in_dec _ _ _); [discriminate|]. destruct (boundary_cells f x); try discriminate.
  intros H. now apply K in H.
Qed.

Definition cov_step (f : frames) (reg : list nat) (cov : cell -> bool) (x : wop) (c : cell) : bool :=
  match x with
  | WSize _ _ => false
  | WAdd o x => if in_dec Nat.eq_dec o reg then cov c else draws f x c || cov c
  | WRemove o x => if in_dec Nat.eq_dec o reg then negb (draws f x c) && cov c else cov c
  | _ => cov c
  end.

Lemma lookup_reg m reg o : reg_ok m reg -> (exists i, lookup o (om_obs m) = Some i /\ In o reg) \/ (lookup o (om_obs m) = None /\ ~ In o reg).
Proof.
  intros [_ H]. destruct (lookup o (om_obs m)) as [i|] eqn:E.
  - left. exists i. split; auto. apply H. apply lookup_In, (in_map fst) in E. exact E.
  - right. split; auto. apply lookup_None in E. now rewrite H.
Qed.

Lemma wd_step_ok w f reg sized made cov gops x : winv w f reg sized made cov gops -> world_used f sized made [x] ->
  exists k w' m', (forall fuel, (k <= fuel)%nat -> wd_step top topv fuel w x = Ok w') /\
    winv w' (frames_after f x) (registered_step reg x) (match x with WSize _ _ => true | _ => sized end)
      (match x with WSize _ _ => false | WGvd => true | _ => made end) (cov_step f reg cov x)
      (match x with WSize _ _ => [] | _ => gops ++ calls f reg x m' end).
Proof.
  intros W [U _]. pose proof W as [I1 I2 I3 I4].
  destruct x as [p|wdt hgt|o x|o x| | |].
  - (* position *)
    exists O, (World (fr_set_position (wd_frames w) p) (wd_map w) (wd_dist w)), om_new. split; [reflexivity|].
    cbn [calls]. rewrite app_nil_r. constructor; cbn; auto. now rewrite I1.
  - (* size *)
    destruct U as (f' & Ef & Hp). cbn [frames_after registered_step]. rewrite Ef.
    assert (U1 : ObstacleMap_spec.well_used None [OInit (fr_rows f') (fr_cols f')]) by (destruct Hp; cbn; intuition).
    assert (E1 : exists m, om_init (wd_map w) (fr_rows f') (fr_cols f') = Ok m /\ size_ok m (Some (fr_rows f', fr_cols f')) /\
      forall c, mark_ok m c None).
    { unfold om_init. destruct Hp as (P1 & P2 & _). destruct (proj2 (grid_new_iff (fr_rows f') (fr_cols f') (-1)) (conj P1 P2)) as [g Hg].
      rewrite Hg. cbn [bind]. eexists. split; [reflexivity|]. pose proof (grid_new_wf _ _ _ _ Hg) as (Hw & Hrr & Hcc). split; [cbn; auto|].
      intros c. unfold mark_ok. cbn [om_matrix]. rewrite Hrr, Hcc. intros Hc. exists (-1).
      split; [now apply (grid_new_get (fr_rows f') (fr_cols f'))|]. split; [lia|easy]. }
    destruct E1 as (m & Em & Sm & Mm). destruct (om_matrix m) as [occ|] eqn:Eo; [|unfold size_ok in Sm; rewrite Eo in Sm; easy].
    pose proof (sized_matrix _ _ _ _ Sm Eo) as Zo.
    destruct (api_consistent _ _ Hp top topv Htop Htopv occ Zo [] I) as (k & g0 & g & E0 & Eg & _).
    exists O, (World f' m (Some g0)), om_new. split.
    + intros fuel _. cbn [wd_step]. unfold wd_size. rewrite I1, Ef. cbn [bind]. rewrite Em. cbn [bind]. rewrite Eo, E0. reflexivity.
    + assert (S1 : om_step (wd_map w) (OInit (fr_rows f') (fr_cols f')) = Ok m) by exact Em.
      constructor; cbn [wd_frames wd_map wd_dist cov_step]; auto.
      * eapply om_step_inv; eauto.
      * apply (reg_step_ok _ _ _ _ I2 I3 S1).
      * split; auto. split; auto. split; [exact I|]. split; auto. split; [reflexivity|]. split; auto.
        exists occ, g0, g0, O. split; auto.
  - (* add *)
    destruct U as (-> & l & El). pose proof I4 as (D1 & D2 & D3 & D4 & D5 & D6 & Dg). cbn [frames_after registered_step cov_step].
    assert (Ex : exists g, om_matrix (wd_map w) = Some g) by (unfold size_ok in D2; destruct (om_matrix (wd_map w)); [eauto|easy]).
    destruct Ex as (mg & Emg).
    destruct (lookup_reg _ _ o I3) as [(i & Eo & Io)|(Eo & Io)]; destruct (in_dec Nat.eq_dec o reg) as [Ir|Ir]; try contradiction.
    + exists O, w, om_new. split.
      * intros fuel _. cbn [wd_step]. unfold wd_add. rewrite Emg, Eo. reflexivity.
      * cbn [calls]. destruct (in_dec Nat.eq_dec o reg); [|contradiction]. rewrite app_nil_r. constructor; auto.
        split; auto. split; auto. split; auto. split; auto. split; [|split; auto].
        -- intros c. unfold cov_step. destruct (in_dec Nat.eq_dec o reg); [apply D5|contradiction].
        -- intros c. unfold cov_step. destruct (in_dec Nat.eq_dec o reg); [apply D6|contradiction].
    + pose proof (boundary_inside _ _ _ El) as Hl.
      destruct (om_step_marks (wd_map w) (OAdd o l) reg (Some (fr_rows f, fr_cols f)) I2 I3 D2) as (m & Em & Sm & Mm); [cbn; auto|].
      cbn [om_step] in Em. unfold rmap in Em. destruct (om_add (wd_map w) o l) as [[m1 b]| | |] eqn:Ea; cbn [bind fst] in Em; try discriminate.
      assert (m1 = m) as -> by congruence.
      assert (S1 : om_step (wd_map w) (OAdd o l) = Ok m) by (cbn [om_step]; unfold rmap; rewrite Ea; reflexivity).
      assert (Ex : exists g, om_matrix m = Some g) by (unfold size_ok in Sm; cbn [step_size] in Sm; destruct (om_matrix m); [eauto|easy]).
      destruct Ex as (mg' & Emg').
      destruct (wd_call_step w f reg made cov gops (map GSet l ++ occ_change m) (cov_step f reg cov (WAdd o x)) m W) with (reg' := o :: reg)
        as (k & w' & Ew & Iw).
      * eapply om_step_inv; eauto.
      * pose proof (reg_step_ok _ _ _ _ I2 I3 S1) as K. cbn [reg_step] in K. destruct (in_dec Nat.eq_dec o reg); [contradiction|exact K].
      * exact Sm.
      * apply well_used_app. rewrite made_sets by discriminate. split.
        -- clear - Hl. induction Hl; cbn; auto.
        -- unfold occ_change. rewrite Emg'. cbn. split; auto. apply (sized_matrix _ _ _ _ Sm Emg').
      * intros c Ic. unfold cov_step. destruct (in_dec Nat.eq_dec o reg); [contradiction|]. rewrite obstacle_after_app, obstacle_occ, obstacle_sets.
        unfold draws. now rewrite El.
      * intros c. specialize (Mm c _ (D6 c)). eapply mark_same; [exact Mm|]. unfold cov_step, step_mark, draws.
        destruct (in_dec Nat.eq_dec o reg); [contradiction|]. rewrite El. destruct (existsb (cell_eqb c) l); cbn [orb]; [intuition discriminate|tauto].
      * exists k, w', m. split.
        -- intros fuel Hf. cbn [wd_step]. unfold wd_add. rewrite Emg, Eo, I1, El. cbn [bind]. rewrite Ea. cbn [bind].
           rewrite I1 in Ew. rewrite Ew by exact Hf. reflexivity.
        -- cbn [calls]. destruct (in_dec Nat.eq_dec o reg); [contradiction|]. rewrite El.
           rewrite made_after_app, made_occ, made_sets in Iw by discriminate. exact Iw.
  - (* remove *)
    destruct U as (-> & l & El). pose proof I4 as (D1 & D2 & D3 & D4 & D5 & D6 & Dg). cbn [frames_after registered_step cov_step].
    assert (Ex : exists g, om_matrix (wd_map w) = Some g) by (unfold size_ok in D2; destruct (om_matrix (wd_map w)); [eauto|easy]).
    destruct Ex as (mg & Emg).
    destruct (lookup_reg _ _ o I3) as [(i & Eo & Io)|(Eo & Io)]; destruct (in_dec Nat.eq_dec o reg) as [Ir|Ir]; try contradiction.
    + pose proof (boundary_inside _ _ _ El) as Hl.
      destruct (om_step_marks (wd_map w) (ORemove o l) reg (Some (fr_rows f, fr_cols f)) I2 I3 D2) as (m & Em & Sm & Mm); [cbn; auto|].
      cbn [om_step] in Em. unfold rmap in Em. destruct (om_remove (wd_map w) o l) as [[m1 b]| | |] eqn:Ea; cbn [bind fst] in Em; try discriminate.
      assert (m1 = m) as -> by congruence.
      assert (S1 : om_step (wd_map w) (ORemove o l) = Ok m) by (cbn [om_step]; unfold rmap; rewrite Ea; reflexivity).
      assert (Ex : exists g, om_matrix m = Some g) by (unfold size_ok in Sm; cbn [step_size] in Sm; destruct (om_matrix m); [eauto|easy]).
      destruct Ex as (mg' & Emg').
      destruct (wd_call_step w f reg made cov gops (map GUnset l ++ occ_change m) (cov_step f reg cov (WRemove o x)) m W) with (reg' := remove Nat.eq_dec o reg)
        as (k & w' & Ew & Iw).
      * eapply om_step_inv; eauto.
      * exact (reg_step_ok _ _ _ _ I2 I3 S1).
      * exact Sm.
      * apply well_used_app. rewrite made_sets by discriminate. split.
        -- clear - Hl. induction Hl; cbn; auto.
        -- unfold occ_change. rewrite Emg'. cbn. split; auto. apply (sized_matrix _ _ _ _ Sm Emg').
      * intros c Ic. unfold cov_step. destruct (in_dec Nat.eq_dec o reg); [|contradiction]. rewrite obstacle_after_app, obstacle_occ, obstacle_unsets.
        unfold draws. now rewrite El.
      * intros c. specialize (Mm c _ (D6 c)). eapply mark_same; [exact Mm|]. unfold cov_step, step_mark, draws.
        destruct (in_dec Nat.eq_dec o reg); [|contradiction]. rewrite El. destruct (existsb (cell_eqb c) l); cbn [negb andb]; [intuition discriminate|tauto].
      * exists k, w', m. split.
        -- intros fuel Hf. cbn [wd_step]. unfold wd_remove. rewrite Emg, Eo, I1, El. cbn [bind]. rewrite Ea. cbn [bind].
           rewrite I1 in Ew. rewrite Ew by exact Hf. reflexivity.
        -- cbn [calls]. destruct (in_dec Nat.eq_dec o reg); [|contradiction]. rewrite El.
           rewrite made_after_app, made_occ, made_sets in Iw by discriminate. exact Iw.
    + exists O, w, om_new. split.
      * intros fuel _. cbn [wd_step]. unfold wd_remove. rewrite Emg, Eo. reflexivity.
      * cbn [calls]. destruct (in_dec Nat.eq_dec o reg); [contradiction|]. rewrite app_nil_r. rewrite notin_remove by exact Io. constructor; auto.
        split; auto. split; auto. split; auto. split; auto. split; [|split; auto].
        -- intros c. unfold cov_step. destruct (in_dec Nat.eq_dec o reg); [contradiction|apply D5].
        -- intros c. unfold cov_step. destruct (in_dec Nat.eq_dec o reg); [contradiction|apply D6].
  - cbn in U. subst sized. destruct I4 as (D1 & D2 & D3 & D4 & D5 & D6 & Dg).
    destruct (wd_call_step w f reg made cov gops [GUpdateObstacles] cov (wd_map w) W I2 reg I3 D2) as (k & w' & Ew & Iw); auto; [cbn; auto|].
    exists k, w', om_new. split; [|exact Iw]. intros fuel Hf. cbn [wd_step]. rewrite (winv_world _ _ _ _ _ _ W) in Ew. now apply Ew.
  - cbn in U. subst sized. destruct I4 as (D1 & D2 & D3 & D4 & D5 & D6 & Dg).
    destruct (wd_call_step w f reg made cov gops [GVoronoi] cov (wd_map w) W I2 reg I3 D2) as (k & w' & Ew & Iw); auto; [cbn; auto|].
    exists k, w', om_new. split; [|exact Iw]. intros fuel Hf. cbn [wd_step]. rewrite (winv_world _ _ _ _ _ _ W) in Ew. now apply Ew.
  - destruct U as [-> ->]. destruct I4 as (D1 & D2 & D3 & D4 & D5 & D6 & Dg).
    destruct (wd_call_step w f reg true cov gops [GUpdateObstacles; GUpdateVoronoi] cov (wd_map w) W I2 reg I3 D2) as (k & w' & Ew & Iw); auto; [cbn; auto|].
    exists k, w', om_new. split; [|exact Iw]. intros fuel Hf. cbn [wd_step]. rewrite (winv_world _ _ _ _ _ _ W) in Ew. now apply Ew.
Qed.

Definition made_step (made : bool) (x : wop) : bool := match x with WSize _ _ => false | WGvd => true | _ => made end.
Definition sized_step (sized : bool) (x : wop) : bool := match x with WSize _ _ => true | _ => sized end.

Lemma wd_run_ok ops : forall w f reg sized made cov gops, winv w f reg sized made cov gops -> world_used f sized made ops ->
  exists k w' gops', (forall fuel, (k <= fuel)%nat -> wd_run top topv fuel w ops = Ok w') /\
    winv w' (world_frames f ops) (world_registered reg ops) (fold_left sized_step ops sized) (fold_left made_step ops made)
      (fun c => world_covered f reg (cov c) ops c) gops' /\
    (existsb Gvd_spec.is_unset gops' = true -> existsb Gvd_spec.is_unset gops = true \/ exists o y, In (WRemove o y) ops).
Proof.
  induction ops as [|x ops IH]; intros w f reg sized made cov gops W U.
  - exists O, w, gops. split; [reflexivity|]. split; [exact W|auto].
  - destruct U as [U1 U2]. destruct (wd_step_ok w f reg sized made cov gops x W (conj U1 I)) as (k1 & w1 & m & E1 & W1).
    destruct (IH _ _ _ _ _ _ _ W1 U2) as (k2 & w2 & gops2 & E2 & W2 & T2). exists (Nat.max k1 k2), w2, gops2. split; [|split].
    + intros fuel Hf. cbn [wd_run]. rewrite E1 by lia. cbn [bind]. apply E2. lia.
    + cbn [fold_left world_frames world_registered world_covered]. destruct W2 as [A B C D]. constructor; auto.
    + intros H. destruct (T2 H) as [T|(o & y & I)]; [|right; exists o, y; now right].
      assert (X : existsb Gvd_spec.is_unset (gops ++ calls f reg x m) = true -> existsb Gvd_spec.is_unset gops = true \/ exists o y, In (WRemove o y) (x :: ops)).
      { rewrite existsb_app. intros Q. apply orb_true_iff in Q as [Q|Q]; auto. apply calls_unset in Q as (o & y & ->). right. exists o, y. now left. }
      destruct x; try discriminate; auto.
Qed.

Lemma winv_new resolution junk : winv (wd_new resolution junk) (fr_new resolution junk) [] false false (fun _ => false) [].
Proof. constructor; cbn; auto using om_new_inv, reg_ok_new. Qed.

End Run.
