(** The edges of the Voronoi diagram of an obstacle list. *)
From Coq Require Import Reals Lra.
From Verif Require Import Base RealBase Grid_model Grid_spec Grid_proofs Coords_model Coords_proofs Pose_model Shape_model Shape_spec Outline_proofs
  ObstacleMap_model ObstacleMap_proofs Gvd_model Gvd_proofs Gvd_api_proofs World_model World_spec World_proofs Planner_proofs Ridge_spec Ridge_proofs RidgeMap_spec.
From Verif Require ObstacleMap_spec Gvd_spec.
From Coq Require Import ZifyBool ZifyNat ZifyN.
Local Open Scope Z_scope.

(** * Histories of numbered cells *)
Definition occ_after (occ : grid Z) (ops : list gop) : grid Z := fold_left (fun g o => match o with GOcc g' => g' | _ => g end) ops occ.

Lemma numbered_ext R C number ops : forall made occ old old', (forall c, inside R C c -> old c = old' c) ->
  numbered R C number made occ old ops -> numbered R C number made occ old' ops.
Proof.
  induction ops as [|o r IH]; intros made occ old old' E H; cbn [numbered] in *; auto. destruct H as [H1 H2]. split.
  - destruct o; auto. destruct H1 as [M H]. split; auto. intros c Hc. destruct (H c Hc) as [A B]. rewrite <- (E c Hc). split; auto.
    intros X d Hd Y. apply B; auto. now rewrite (E d Hd).
  - eapply IH; [|exact H2]. intros c Hc. cbn beta. now rewrite (E c Hc).
Qed.

Lemma numbered_app R C number a b : forall made occ old, numbered R C number made occ old a ->
  numbered R C number (made_after made a) (occ_after occ a) (fun c => Gvd_spec.obstacle_after (old c) a c) b ->
  numbered R C number made occ old (a ++ b).
Proof.
  induction a as [|o a IH]; intros made occ old Ha Hb; cbn [app]; auto. cbn [numbered] in *. destruct Ha as [H1 H2]. split; auto.
  apply IH; auto. unfold made_after, occ_after in *. cbn [fold_left] in Hb.
  eapply numbered_ext; [|exact Hb]. intros c _. cbn beta. now rewrite <- (obstacle_after_app [o] a c (old c)).
Qed.

Lemma numbered_sets R C number l : forall made occ old, numbered R C number made occ old (map GSet l).
Proof. induction l as [|c l IH]; intros made occ old; cbn [map numbered]; auto. Qed.

Lemma occ_sets occ l : occ_after occ (map GSet l) = occ.
Proof. unfold occ_after. induction l; cbn; auto. Qed.

(** * The calls that the distance map receives *)
Section Calls.
Variable f : frames.

Fixpoint gcalls (m : omap) (ops : list wop) : list gop * omap :=
  match ops with
  | [] => ([], m)
  | x :: r =>
      let (l, m1) :=
        match x with
        | WAdd o y =>
            match lookup o (om_obs m) with
            | Some _ => ([], m)
            | None =>
                match boundary_cells f y with
                | Ok cs => match om_add m o cs with Ok (m1, _) => (map GSet cs ++ occ_change m1, m1) | _ => ([], m) end
                | _ => ([], m)
                end
            end
        | WUpdate => ([GUpdateObstacles], m)
        | WGvd => ([GVoronoi], m)
        | WGvdUpdate => ([GUpdateObstacles; GUpdateVoronoi], m)
        | _ => ([], m)
        end in
      let (l', m2) := gcalls m1 r in (l ++ l', m2)
  end.

Lemma gcalls_app a b : forall m, gcalls m (a ++ b) = let (l, m1) := gcalls m a in let (l', m2) := gcalls m1 b in (l ++ l', m2).
Proof.
  induction a as [|x a IH]; intros m; cbn [app gcalls]; [now destruct (gcalls m b)|].
  destruct (match x with WAdd _ _ => _ | _ => _ end) as [l m1]. rewrite IH. destruct (gcalls m1 a) as [l1 m2]. destruct (gcalls m2 b) as [l2 m3].
  now rewrite app_assoc.
Qed.

Definition like (f' : frames) : Prop := forall x, boundary_cells f' x = boundary_cells f x.

Variables top topv : nat -> list (cell * Z) -> nat.

Lemma wd_call_inv fuel w g more w' : wd_dist w = Some g -> wd_call top topv fuel w more = Ok w' ->
  exists g', wd_dist w' = Some g' /\ g_run top topv fuel g more = Ok g' /\ wd_map w' = wd_map w /\ wd_frames w' = wd_frames w.
Proof.
  intros E H. unfold wd_call in H. rewrite E in H. destruct (g_run top topv fuel g more) as [g'| | |] eqn:G; cbn [bind] in H; try discriminate.
  injection H as <-. exists g'. auto.
Qed.

Lemma run_calls fuel ops : only_adds ops -> forall w g w', wd_dist w = Some g -> like (wd_frames w) -> wd_run top topv fuel w ops = Ok w' ->
  exists g', wd_dist w' = Some g' /\ g_run top topv fuel g (fst (gcalls (wd_map w) ops)) = Ok g' /\ wd_map w' = snd (gcalls (wd_map w) ops).
Proof.
  induction 1 as [|x ops Hx _ IH]; intros w g w' Eg L H.
  - cbn in H. injection H as <-. exists g. auto.
  - cbn [wd_run] in H. destruct (wd_step top topv fuel w x) as [w1| | |] eqn:E1; cbn [bind] in H; try discriminate.
    cbn [gcalls]. destruct (match x with WAdd _ _ => _ | _ => _ end) as [l m1] eqn:El.
    assert (S : exists g1, wd_dist w1 = Some g1 /\ g_run top topv fuel g l = Ok g1 /\ wd_map w1 = m1 /\ like (wd_frames w1)).
    { destruct x as [p|? ?|o y|? ?| | |]; try contradiction; cbn [wd_step] in E1.
      - injection E1 as <-. injection El as <- <-. exists g. cbn. split; auto. split; auto. split; auto. intros y. now rewrite boundary_moved.
      - unfold rmap in E1. destruct (wd_add top topv fuel w o y) as [[w1' b]| | |] eqn:Ea; cbn [bind fst] in E1; try discriminate. injection E1 as ->.
        unfold wd_add in Ea. destruct (om_matrix (wd_map w)) as [mg|]; try discriminate. destruct (lookup o (om_obs (wd_map w))) as [i|].
        + injection Ea as <- _. injection El as <- <-. exists g. auto.
        + rewrite L in Ea. destruct (boundary_cells f y) as [cs| | |]; cbn [bind] in Ea; try discriminate.
          destruct (om_add (wd_map w) o cs) as [[m b']| | |]; cbn [bind] in Ea; try discriminate. injection El as <- <-.
          destruct (wd_call top topv fuel (World (wd_frames w) m (wd_dist w)) (map GSet cs ++ occ_change m)) as [w2| | |] eqn:Ec; cbn [bind] in Ea; try discriminate.
          injection Ea as -> _. destruct (wd_call_inv fuel (World (wd_frames w) m (wd_dist w)) g _ w1 Eg Ec) as (g1 & A & B & D & F). cbn [wd_map wd_frames] in D, F.
          exists g1. split; auto. split; auto. split; auto. now rewrite F.
      - injection El as <- <-. destruct (wd_call_inv fuel w g _ w1 Eg E1) as (g1 & A & B & D & F). exists g1. rewrite F. auto.
      - injection El as <- <-. destruct (wd_call_inv fuel w g _ w1 Eg E1) as (g1 & A & B & D & F). exists g1. rewrite F. auto.
      - injection El as <- <-. destruct (wd_call_inv fuel w g _ w1 Eg E1) as (g1 & A & B & D & F). exists g1. rewrite F. auto. }
    destruct S as (g1 & S1 & S2 & S3 & S4). destruct (IH w1 g1 w' S1 S4 H) as (g' & A & B & D). rewrite S3 in B, D.
    destruct (gcalls m1 ops) as [l' m2]. cbn [fst snd] in *. exists g'. split; auto. split; auto. rewrite g_run_app, S2. exact B.
Qed.

(** * The numbers in the occupancy matrix *)
Notation R := (fr_rows f).
Notation C := (fr_cols f).
Notation ins := (inside R C).
Definition drawn_by (xs : list (nat * obst)) (c : cell) : bool := existsb (fun p => draws f (snd p) c) xs.

Definition ids (m : omap) (xs : list (nat * obst)) : Prop :=
  oinv m /\ exists g, om_matrix m = Some g /\ gwf g /\ rows g = R /\ columns g = C /\
  (forall o y, In (o, y) xs -> exists i, lookup o (om_obs m) = Some i /\ forall c, ins c -> draws f y c = true -> grid_get g c = Ok i) /\
  (forall c, ins c -> drawn_by xs c = false -> grid_get g c = Ok (-1)).

Lemma ids_add m xs o y cs : ids m xs -> lookup o (om_obs m) = None -> boundary_cells f y = Ok cs -> no_common_cell f (xs ++ [(o, y)]) ->
  exists m1, om_add m o cs = Ok (m1, true) /\ ids m1 (xs ++ [(o, y)]) /\ forall o' i, lookup o' (om_obs m) = Some i -> lookup o' (om_obs m1) = Some i.
Proof.
  intros (Oi & g & Eg & Gw & Gr & Gc & A & B) Lo Eb Dj.
  pose proof (boundary_inside f y cs Eb) as Hcs. destruct (paint_spec cs g (find_smallest_id (om_ids m)) Gw) as (g' & P1 & P2 & P3 & P4 & P5).
  { rewrite Gr, Gc. exact Hcs. }
  rewrite Gr, Gc in P5.
  assert (Ea : om_add m o cs = Ok (OMap ((o, find_smallest_id (om_ids m)) :: om_obs m) (set_insert (find_smallest_id (om_ids m)) (om_ids m)) (Some g'), true)).
  { unfold om_add. rewrite Eg, Lo, P1. reflexivity. }
  assert (Dr : forall c, draws f y c = existsb (cell_eqb c) cs) by (intros c; unfold draws; now rewrite Eb).
  assert (St : forall o' i, lookup o' (om_obs m) = Some i -> lookup o' ((o, find_smallest_id (om_ids m)) :: om_obs m) = Some i).
  { intros o' i H. cbn [lookup]. destruct (Nat.eqb_spec o o') as [<-|N]; [congruence|auto]. }
  eexists. split; [exact Ea|]. split; [|exact St].
  split; [exact (proj1 (om_add_obs _ _ _ _ _ Oi Ea))|]. exists g'. cbn [om_matrix om_obs]. split; auto. split; auto. split; [congruence|]. split; [congruence|]. split.
  - intros o' y' H. apply in_app_or in H as [H|[H|[]]].
    + destruct (A o' y' H) as (i & I1 & I2). exists i. split; [now apply St|]. intros c Hc Hd. rewrite P5 by auto.
      destruct (existsb (cell_eqb c) cs) eqn:X; [|auto]. exfalso. apply (Dj o' y' o y c); auto.
      * apply in_or_app; auto.
      * apply in_or_app; right; now left.
      * intros ->. congruence.
      * now rewrite Dr.
    + injection H as <- <-. exists (find_smallest_id (om_ids m)). cbn [lookup]. rewrite Nat.eqb_refl. split; auto. intros c Hc Hd. rewrite P5 by auto.
      rewrite Dr in Hd. now rewrite Hd.
  - intros c Hc Hd. unfold drawn_by in Hd. rewrite existsb_app in Hd. apply orb_false_iff in Hd as [D1 D2]. cbn [existsb snd] in D2. rewrite orb_false_r, Dr in D2.
    rewrite P5 by auto. rewrite D2. now apply B.
Qed.

Lemma apart_sub xs zs : (forall p, In p xs -> In p zs) -> no_common_cell f zs -> no_common_cell f xs.
Proof. intros H D o y o' y' c I1 I2. apply D; auto. Qed.

Lemma sized_ids m xs g : ids m xs -> om_matrix m = Some g -> Gvd_spec.sized R C g.
Proof. intros (_ & g' & E & (A & B & D) & Er & Ec & _) H. assert (g' = g) as -> by congruence. split; auto. split; auto. rewrite Er, Ec in D. lia. Qed.

Definition can_draw (ops : list wop) : Prop := Forall (fun x => match x with WAdd _ y => drawable f y | _ => True end) ops.

Lemma numbered_calls ops : only_adds ops -> can_draw ops -> forall m reg xs occ, reg_ok m reg -> ids m xs -> om_matrix m = Some occ -> no_common_cell f (xs ++ added reg ops) ->
  forall l m', gcalls m ops = (l, m') ->
  ids m' (xs ++ added reg ops) /\ (forall o i, lookup o (om_obs m) = Some i -> lookup o (om_obs m') = Some i) /\
  Gvd_spec.well_used R C true l /\ made_after true l = true /\ existsb Gvd_spec.is_unset l = false /\
  (exists occ', om_matrix m' = Some occ' /\ occ_after occ l = occ') /\
  (forall c, ins c -> forall b, Gvd_spec.obstacle_after b l c = (drawn_by (added reg ops) c || b)%bool) /\
  forall number, (forall o y c i, In (o, y) (xs ++ added reg ops) -> lookup o (om_obs m') = Some i -> ins c -> draws f y c = true -> number c = i) ->
  numbered R C number true occ (drawn_by xs) l.
Proof.
  induction 1 as [|x ops Hx Ho IH]; intros Hd m reg xs occ Hr Hi Em Dj l m' E.
  - cbn in E. injection E as <- <-. cbn [added]. rewrite app_nil_r. cbn. split; auto. split; auto. split; auto. split; auto. split; auto. split; [eauto|]. split; auto.
  - inversion Hd as [|? ? D1 D2]; subst. cbn [gcalls] in E.
    (* calls without effect on the numbers *)
    assert (Plain : forall l0, registered_step reg x = reg -> added reg (x :: ops) = added reg ops ->
      Gvd_spec.well_used R C true l0 -> made_after true l0 = true -> existsb Gvd_spec.is_unset l0 = false -> occ_after occ l0 = occ ->
      (forall c b, Gvd_spec.obstacle_after b l0 c = b) ->
      (forall number, (forall o y c i, In (o, y) xs -> lookup o (om_obs m) = Some i -> ins c -> draws f y c = true -> number c = i) ->
         numbered R C number true occ (drawn_by xs) l0) ->
      (let (l', m2) := gcalls m ops in (l0 ++ l', m2)) = (l, m') ->
      ids m' (xs ++ added reg (x :: ops)) /\ (forall o i, lookup o (om_obs m) = Some i -> lookup o (om_obs m') = Some i) /\
      Gvd_spec.well_used R C true l /\ made_after true l = true /\ existsb Gvd_spec.is_unset l = false /\
      (exists occ', om_matrix m' = Some occ' /\ occ_after occ l = occ') /\
      (forall c, ins c -> forall b, Gvd_spec.obstacle_after b l c = (drawn_by (added reg (x :: ops)) c || b)%bool) /\
      forall number, (forall o y c i, In (o, y) (xs ++ added reg (x :: ops)) -> lookup o (om_obs m') = Some i -> ins c -> draws f y c = true -> number c = i) ->
      numbered R C number true occ (drawn_by xs) l).
    { intros l0 Er Ea U0 M0 N0 O0 B0 K0 E0. rewrite Ea in *. destruct (gcalls m ops) as [l' m2] eqn:G. injection E0 as <- <-.
      destruct (IH D2 m reg xs occ Hr Hi Em Dj l' m2 G) as (A1 & A2 & A3 & A4 & A5 & (occ' & A6 & A7) & A8 & A9).
      split; auto. split; auto. split; [apply well_used_app; rewrite M0; auto|]. split; [now rewrite made_after_app, M0|].
      split; [now rewrite existsb_app, N0|]. split; [exists occ'; split; auto; unfold occ_after in *; now rewrite fold_left_app, O0|].
      split; [intros c Hc b; rewrite obstacle_after_app, B0; auto|]. intros number Hn. apply numbered_app.
      - apply K0. intros o y c i I1 I2 I3 I4. apply (Hn o y c i); auto. apply in_or_app; auto.
      - rewrite M0, O0. eapply numbered_ext; [|apply A9; exact Hn]. intros c _. cbn beta. now rewrite B0. }
    assert (Upd : forall number, (forall o y c i, In (o, y) xs -> lookup o (om_obs m) = Some i -> ins c -> draws f y c = true -> number c = i) ->
      forall c, ins c -> (drawn_by xs c = true -> grid_get occ c = Ok (number c)) /\
        (drawn_by xs c = false -> forall d, ins d -> drawn_by xs d = true -> grid_get occ c <> Ok (number d))).
    { destruct Hi as (Oi & g & Eg & Gw & Gr & Gc & A & B). assert (g = occ) as -> by congruence. intros number Hn c Hc. split.
      - intros X. apply existsb_exists in X as ([o y] & X1 & X2). cbn [snd] in X2. destruct (A o y X1) as (i & I1 & I2).
        rewrite (I2 c Hc X2). f_equal. symmetry. exact (Hn o y c i X1 I1 Hc X2).
      - intros X d Hdd Y. rewrite (B c Hc X). apply existsb_exists in Y as ([o y] & Y1 & Y2). cbn [snd] in Y2. destruct (A o y Y1) as (i & I1 & I2).
        rewrite (Hn o y d i Y1 I1 Hdd Y2). intros [= Z]. apply lookup_In in I1. pose proof (oi_pos _ Oi) as P. specialize (P i).
        assert (0 <= i) by (apply P; now apply (in_map snd) in I1). lia. }
    destruct x as [p|? ?|o y|? ?| | |]; try contradiction.
    + apply (Plain []); auto; cbn; auto.
    + destruct (lookup_reg _ _ o Hr) as [(i & Eo & Io)|(Eo & Io)].
      * rewrite Eo in E. apply (Plain []); cbn; auto; destruct (in_dec Nat.eq_dec o reg); auto; contradiction.
      * rewrite Eo in E. destruct D1 as (cs & Ecs). rewrite Ecs in E.
        assert (Ea : added reg (WAdd o y :: ops) = (o, y) :: added (o :: reg) ops).
        { cbn [added registered_step]. destruct (in_dec Nat.eq_dec o reg); [contradiction|reflexivity]. }
        rewrite Ea in *.
        destruct (ids_add m xs o y cs Hi Eo Ecs) as (m1 & M1 & M2 & M3).
        { eapply apart_sub; [|exact Dj]. intros q Hq. apply in_app_or in Hq as [Hq|[<-|[]]]; apply in_or_app; [now left|right; now left]. }
        rewrite M1 in E. destruct (gcalls m1 ops) as [l' m2] eqn:G. injection E as <- <-.
        assert (R1 : reg_ok m1 (o :: reg)).
        { assert (S1 : om_step m (OAdd o cs) = Ok m1) by (cbn [om_step]; unfold rmap; rewrite M1; reflexivity).
          pose proof (reg_step_ok _ _ _ _ (proj1 Hi) Hr S1) as K. cbn [reg_step] in K. destruct (in_dec Nat.eq_dec o reg); [contradiction|exact K]. }
        assert (Eq : xs ++ (o, y) :: added (o :: reg) ops = (xs ++ [(o, y)]) ++ added (o :: reg) ops) by now rewrite <- app_assoc.
        rewrite Eq in *.
        assert (Ex1 : exists g1, om_matrix m1 = Some g1) by (destruct M2 as (_ & g1 & X & _); eauto). destruct Ex1 as (g1 & Eg1).
        destruct (IH D2 m1 (o :: reg) (xs ++ [(o, y)]) g1 R1 M2 Eg1 Dj l' m2 G) as (A1 & A2 & A3 & A4 & A5 & (occ' & A6 & A7) & A8 & A9).
        assert (Oc : occ_change m1 = [GOcc g1]) by (unfold occ_change; now rewrite Eg1). rewrite Oc.
        pose proof (boundary_inside f y cs Ecs) as Hcs.
        assert (MA : made_after true (map GSet cs ++ [GOcc g1]) = true) by (rewrite made_after_app, made_sets by discriminate; reflexivity).
        assert (OA : occ_after occ (map GSet cs ++ [GOcc g1]) = g1) by (unfold occ_after; rewrite fold_left_app; reflexivity).
        assert (Dr : forall c b, Gvd_spec.obstacle_after b (map GSet cs ++ [GOcc g1]) c = (draws f y c || b)%bool).
        { intros c b. rewrite obstacle_after_app, obstacle_sets. cbn. unfold draws. now rewrite Ecs. }
        split; [exact A1|]. split; [intros; apply A2, M3; auto|].
        split.
        { apply well_used_app. rewrite MA. split; auto. apply well_used_app. rewrite made_sets by discriminate. split.
          - clear - Hcs. induction Hcs; cbn; auto.
          - cbn. split; auto. exact (sized_ids _ _ _ M2 Eg1). }
        split; [now rewrite made_after_app, MA|].
        split.
        { rewrite existsb_app, A5, orb_false_r, existsb_app. cbn. rewrite orb_false_r. clear. induction cs; cbn; auto. }
        split; [exists occ'; split; auto; unfold occ_after in *; now rewrite fold_left_app, OA|].
        split.
        { intros c Hc b. rewrite obstacle_after_app, Dr, A8 by auto. unfold drawn_by. cbn [existsb snd].
          destruct (existsb _ (added (o :: reg) ops)), (draws f y c), b; reflexivity. }
        intros number Hn. apply numbered_app.
        { apply numbered_app; [apply numbered_sets|]. cbn. auto. }
        rewrite MA, OA. eapply numbered_ext; [|apply A9; exact Hn]. intros c Hc. cbn beta. rewrite Dr. unfold drawn_by. rewrite existsb_app. cbn [existsb snd].
        destruct (existsb _ xs), (draws f y c); reflexivity.
    + apply (Plain [GUpdateObstacles]); cbn; auto.
    + apply (Plain [GVoronoi]); cbn; auto.
    + apply (Plain [GUpdateObstacles; GUpdateVoronoi]); cbn; auto.
Qed.
End Calls.

(** * The history of a map *)
Lemma used_split a b : forall f s m, world_used f s m (a ++ b) <-> world_used f s m a /\
  world_used (world_frames f a) (fold_left sized_step a s) (fold_left made_step a m) b.
Proof.
  induction a as [|x a IH]; intros f s m; cbn [app world_used fold_left world_frames]; [unfold world_frames; cbn; tauto|].
  rewrite IH. unfold world_frames. cbn [fold_left]. unfold sized_step at 2, made_step at 2. tauto.
Qed.

Lemma can_draw_used f ops : only_adds ops -> forall f' s m, like f f' -> world_used f' s m ops -> can_draw f ops.
Proof.
  induction 1 as [|x ops Hx Ho IH]; intros f' s m L U; constructor; destruct U as [U1 U2].
  - destruct x; auto. destruct U1 as (_ & l & E). exists l. now rewrite <- L.
  - eapply IH; [|exact U2]. destruct x as [q|? ?|? ?|? ?| | |]; try contradiction; auto. cbn [frames_after]. intros y. rewrite boundary_moved. apply L.
Qed.

Section History.
Variables top topv : nat -> list (cell * Z) -> nat.
Hypothesis Htop : Gvd_spec.priority top.
Hypothesis Htopv : Gvd_spec.priority topv.

Lemma map_history resolution junk pre width height body :
  world_used (fr_new resolution junk) false false (pre ++ WSize width height :: WGvd :: body ++ [WGvdUpdate]) -> only_adds body ->
  let F := world_frames (fr_new resolution junk) (pre ++ [WSize width height]) in
  let xs := added (world_registered [] pre) body in
  no_common_cell F xs ->
  exists occ ops number, Gvd_spec.representable (fr_rows F) (fr_cols F) /\ Gvd_spec.sized (fr_rows F) (fr_cols F) occ /\
    Gvd_spec.well_used (fr_rows F) (fr_cols F) false (ops ++ [GUpdateObstacles; GUpdateVoronoi]) /\
    numbered (fr_rows F) (fr_cols F) number false occ (fun _ => false) (ops ++ [GUpdateObstacles; GUpdateVoronoi]) /\
    existsb Gvd_spec.is_unset ops = false /\
    (forall c, inside (fr_rows F) (fr_cols F) c -> (Gvd_spec.obstacle ops c <-> drawn_by F xs c = true)) /\
    (forall o y o' y' a b, In (o, y) xs -> In (o', y') xs -> draws F y a = true -> draws F y' b = true ->
       inside (fr_rows F) (fr_cols F) a -> inside (fr_rows F) (fr_cols F) b -> (number a <> number b <-> o <> o')) /\
    forall P, Gvd_spec.reaches top topv occ (ops ++ [GUpdateObstacles; GUpdateVoronoi]) P ->
      exists k w g, (forall fuel, (k <= fuel)%nat -> wd_run top topv fuel (wd_new resolution junk) (pre ++ WSize width height :: WGvd :: body ++ [WGvdUpdate]) = Ok w) /\
        wd_dist w = Some g /\ P g.
Proof.
  intros U Ho F xs Dj. apply used_split in U as [U1 U2].
  destruct (wd_run_ok top topv Htop Htopv pre _ _ _ _ _ _ _ (winv_new top topv resolution junk) U1) as (k0 & w0 & gops0 & E0 & W0 & _).
  destruct U2 as [Us U3].
  destruct (wd_step_ok top topv Htop Htopv w0 _ _ _ _ _ _ (WSize width height) W0 (conj Us I)) as (k1 & w1 & m1' & E1 & W1).
  cbn [wd_step] in E1. specialize (E1 k1 (le_n _)).
  assert (EF : F = frames_after (world_frames (fr_new resolution junk) pre) (WSize width height)) by (unfold F, world_frames; rewrite fold_left_app; reflexivity).
  rewrite <- EF in W1, U3. clearbody F. cbn [registered_step] in W1.
  assert (S1 : wd_frames w1 = F /\ Gvd_spec.representable (fr_rows F) (fr_cols F) /\ oinv (wd_map w1) /\ reg_ok (wd_map w1) (world_registered [] pre)).
  { destruct W1 as [A1 A2 A3 (A4 & _)]. auto. }
  destruct S1 as (F1 & Hp & O1 & R1).
  (* the new matrix *)
  unfold wd_size in E1. destruct (fr_init (wd_frames w0) width height) as [f'| | |] eqn:Ef; cbn [bind] in E1; try discriminate.
  destruct (om_init (wd_map w0) (fr_rows f') (fr_cols f')) as [m| | |] eqn:Em; cbn [bind] in E1; try discriminate.
  destruct (om_matrix m) as [occ|] eqn:Eo; try discriminate. destruct (g_new occ) as [g0| | |] eqn:Eg; cbn [bind] in E1; try discriminate.
  injection E1 as <-. cbn [wd_frames wd_map] in *. subst f'.
  assert (I0 : ids F m []).
  { split; auto. exists occ. split; auto. unfold om_init in Em. destruct (grid_new (fr_rows F) (fr_cols F) (-1)) as [g| | |] eqn:Hg; cbn [bind] in Em; try discriminate.
    injection Em as <-. cbn [om_matrix] in Eo. injection Eo as ->. pose proof (grid_new_wf _ _ _ _ Hg) as (Hw & Hrr & Hcc).
    do 3 (split; auto). split; [intros ? ? []|]. intros c Hc _. now apply (grid_new_get (fr_rows F) (fr_cols F)). }
  (* the calls *)
  destruct U3 as [_ U3]. cbn [frames_after] in U3.
  assert (Cd : can_draw F body).
  { apply used_split in U3 as [U3 _]. eapply can_draw_used; [exact Ho| |exact U3]. intros y. reflexivity. }
  destruct (gcalls F m body) as [l m'] eqn:Gl.
  destruct (numbered_calls F top topv body Ho Cd m (world_registered [] pre) [] occ R1 I0 Eo Dj l m' Gl) as (A1 & A2 & A3 & A4 & A5 & (occ' & A6 & A7) & A8 & A9).
  cbn [app] in A1, A9. fold xs in A1, A8, A9.
  pose proof A1 as (O2 & g' & Eg' & Gw & Gr & Gc & K1 & K2). assert (g' = occ') as -> by congruence.
  exists occ, (GVoronoi :: l), (fun c => match grid_get occ' c with Ok v => v | _ => -1 end).
  assert (Num : forall o y c i, In (o, y) xs -> lookup o (om_obs m') = Some i -> inside (fr_rows F) (fr_cols F) c -> draws F y c = true ->
    match grid_get occ' c with Ok v => v | _ => -1 end = i).
  { intros o y c i X1 X2 X3 X4. destruct (K1 o y X1) as (j & J1 & J2). rewrite (J2 c X3 X4). congruence. }
  split; auto. split; [exact (sized_ids F _ _ _ I0 Eo)|].
  split; [|split; [|split; [|split; [|split]]]].
  - cbn [app]. split; auto. apply well_used_app. rewrite A4. cbn. auto.
  - cbn [app numbered]. split; auto. apply numbered_app.
    + eapply numbered_ext; [|apply A9; exact Num]. reflexivity.
    + rewrite A4, A7. cbn [numbered]. split; [|auto]. split; auto. cbn [Gvd_spec.obstacle_after]. intros c Hc. rewrite !A8 by auto. rewrite orb_false_r. split.
      * intros X. apply existsb_exists in X as ([o y] & X1 & X2). cbn [snd] in X2. destruct (K1 o y X1) as (i & I1 & I2). now rewrite (I2 c Hc X2).
      * intros X d Hd Y. rewrite A8, orb_false_r in Y by auto. rewrite (K2 c Hc X). apply existsb_exists in Y as ([o y] & Y1 & Y2). cbn [snd] in Y2. destruct (K1 o y Y1) as (i & I1 & I2).
        rewrite (I2 d Hd Y2). intros [= Z]. apply lookup_In in I1. assert (0 <= i) by (apply (oi_pos _ O2); now apply (in_map snd) in I1). lia.
  - exact A5.
  - intros c Hc. unfold Gvd_spec.obstacle. cbn [Gvd_spec.obstacle_after]. rewrite A8, orb_false_r by auto. tauto.
  - intros o y o' y' a b X1 X2 Y1 Y2 Ha Hb. destruct (K1 o y X1) as (i & I1 & I2). destruct (K1 o' y' X2) as (j & J1 & J2). rewrite (I2 a Ha Y1), (J2 b Hb Y2). split.
    + intros N ->. congruence.
    + intros N ->. apply lookup_In in I1. apply lookup_In in J1. pose proof (oi_vals _ O2) as V. apply N.
      clear - I1 J1 V. induction (om_obs m') as [|[p q] r IH]; [contradiction|]. cbn [map snd] in V. inversion V as [|? ? V1 V2]; subst.
      destruct I1 as [I1|I1], J1 as [J1|J1]; auto; try congruence.
      * injection I1 as -> ->. exfalso. apply V1. now apply (in_map snd) in J1.
      * injection J1 as -> ->. exfalso. apply V1. now apply (in_map snd) in I1.
  - intros P (k & st0 & st & H0 & H & HP). assert (st0 = g0) as -> by congruence.
    destruct (wd_run_ok top topv Htop Htopv (WGvd :: body ++ [WGvdUpdate]) _ _ _ _ _ _ _ W1) as (k2 & w2 & gops2 & E2 & _ & _).
    { cbn [world_used]. split; auto. }
    assert (Q : forall fuel, (Nat.max k k2 <= fuel)%nat -> wd_dist w2 = Some st).
    { intros fuel Hf. destruct (run_calls F top topv fuel (WGvd :: body ++ [WGvdUpdate])) with (w := World F m (Some g0)) (g := g0) (w' := w2) as (g2 & B1 & B2 & _).
      - constructor; auto. apply Forall_app. split; auto.
      - reflexivity.
      - intros y. reflexivity.
      - apply E2. lia.
      - cbn [wd_map] in B2. cbn [gcalls] in B2. rewrite gcalls_app, Gl in B2. cbn [gcalls fst app] in B2. rewrite ?app_nil_r in B2.
        specialize (H fuel ltac:(lia)). cbn [app] in H. rewrite B1. congruence. }
    exists (Nat.max k0 (Nat.max k k2)), w2, st. split; [|split; [apply (Q (Nat.max k k2)); lia|exact HP]].
    intros fuel Hf. rewrite wd_run_app, E0 by lia. cbn [bind wd_run wd_step]. unfold wd_size. rewrite Ef. cbn [bind]. rewrite Em. cbn [bind]. rewrite Eo, Eg. cbn [bind].
    apply E2. lia.
Qed.
End History.

Lemma draws_inside f y c : draws f y c = true -> inside (fr_rows f) (fr_cols f) c.
Proof.
  unfold draws. destruct (boundary_cells f y) as [l| | |] eqn:E; try discriminate. intros H. apply existsb_exists in H as (d & H1 & H2).
  apply cell_eqb_eq in H2. subst d. pose proof (boundary_inside f y l E) as A. rewrite Forall_forall in A. auto.
Qed.
