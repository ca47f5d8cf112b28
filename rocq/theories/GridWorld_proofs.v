(** Searches on the occupancy map of a list of obstacles stay on one side of every polygon. *)
From Coq Require Import Reals Lra.
From Verif Require Import Base RealBase Frontier_spec AStar_model Grid_model Grid_spec Coords_model Pose_model Raster_model Raster_spec Raster_proofs
  ObstacleMap_model Shape_model Shape_spec Shape_proofs World_model Gvd_spec World_spec ObstacleMap_proofs World_proofs WorldClear_proofs
  AStarN2_model AStarN2_spec Bidir_model GridSide_spec GridSide_proofs GridDraw_proofs.
Local Open Scope R_scope.

Lemma part_cells f p s vs : part s vs -> forall l, shape_cells f p s = Ok l ->
  exists cs l', map_res (fun v => world_to_cell f v false) (map (place p) vs) = Ok cs /\ polygon_cells (fr_rows f) (fr_cols f) cs = Ok l' /\ incl l' l.
Proof.
  induction 1 as [vs|cs c vs Hc Hp IH]; intros l E.
  - cbn [shape_cells] in E. destruct (map_res _ _) as [ds| | |] eqn:Ed; try discriminate. cbn [bind] in E. exists ds, l. split; auto. split; auto. easy.
  - cbn [shape_cells] in E. revert l E. induction cs as [|d cs IHcs]; intros l E; [contradiction|].
    destruct (shape_cells f p d) as [a| | |] eqn:Ea; try discriminate. cbn [bind] in E.
    match type of E with bind ?g _ = _ => destruct g as [b| | |] eqn:Eb; try discriminate end. cbn [bind] in E. injection E as <-.
    destruct Hc as [->|Hc].
    + destruct (IH a Ea) as (es & l' & E1 & E2 & E3). exists es, l'. split; auto. split; auto. intros x Hx. apply in_or_app. left. auto.
    + destruct (IHcs Hc b eq_refl) as (es & l' & E1 & E2 & E3). exists es, l'. split; auto. split; auto. intros x Hx. apply in_or_app. right. auto.
Qed.

Lemma map_res_each {A B} (g : A -> res B) l : forall bs, map_res g l = Ok bs -> Forall2 (fun a b => g a = Ok b) l bs.
Proof.
  induction l as [|a l IH]; intros bs E; cbn [map_res] in E; [injection E as <-; constructor|].
  destruct (g a) as [b| | |] eqn:Ea; try discriminate. cbn [bind] in E. destruct (map_res g l) as [cs| | |]; try discriminate. cbn [bind] in E. injection E as <-. constructor; auto.
Qed.

Section World.
  Variables top topv : nat -> list (cell * Z) -> nat.
  Hypotheses (Ht : Gvd_spec.priority top) (Htv : Gvd_spec.priority topv).

  (** The cells drawn for an obstacle that is kept are occupied. *)
  Lemma kept_occupied f0 pre o x post c : let F := world_frames f0 (pre ++ WAdd o x :: post) in
    ~ In o (world_registered [] pre) -> kept F o x post -> draws F x c = true ->
    world_covered f0 [] false (pre ++ WAdd o x :: post) c = true.
  Proof using Type.
    clear. intros F Hn K D. rewrite world_covered_app. cbn [world_covered frames_after registered_step]. fold (world_registered [] pre).
    destruct (in_dec Nat.eq_dec o (world_registered [] pre)); [contradiction|]. unfold F in *. clear F.
    rewrite world_frames_app in K, D. cbn [world_frames fold_left frames_after] in K, D. fold (world_frames (world_frames f0 pre) post) in K, D.
    assert (exists p, world_frames (world_frames f0 pre) post = fr_set_position (world_frames f0 pre) p \/ world_frames (world_frames f0 pre) post = world_frames f0 pre) as (p & Hp).
    { clear - K. set (f := world_frames f0 pre) in *. clearbody f.
      assert (Q : forall F, kept F o x post -> forall f, exists p, world_frames f post = fr_set_position f p \/ world_frames f post = f).
      { clear. intros F HK. induction post as [|z r IH]; intros f'; [exists (0, 0); now right|]. inversion HK as [|? ? H1 H2]; subst. destruct z; try easy; cbn [world_frames fold_left frames_after]; try apply (IH H2).
        destruct (IH H2 (fr_set_position f' p)) as (q & [Q|Q]); unfold world_frames in Q; [exists q|exists p]; left; exact Q. }
      exact (Q _ K f). }
    assert (D' : draws (world_frames f0 pre) x c = true) by (destruct Hp as [Hp|Hp]; rewrite Hp in D; rewrite ?draws_moved in D; exact D).
    rewrite D'. cbn [orb]. apply kept_covered with (o := o) (x := x); auto; [now left|]. destruct Hp as [Hp|Hp]; rewrite Hp in K; [apply kept_moved in K|]; exact K.
  Qed.

  Lemma used_drawable f0 pre o x post : forall sz md, world_used f0 sz md (pre ++ WAdd o x :: post) ->
    drawable (world_frames f0 pre) x /\ (sz = true \/ has_size pre).
  Proof using Type.
    clear. revert f0. induction pre as [|z pre IH]; intros f0 sz md Hu.
    - destruct Hu as [[A B] _]. split; auto.
    - destruct Hu as [Hz Hu]. destruct (IH _ _ _ Hu) as [A B]. split; [exact A|]. destruct z; try (right; now left); destruct B as [B|B]; auto; right; now right.
  Qed.

  Lemma world_walls resolution junk pre o x post : let ops := pre ++ WAdd o x :: post in let F := world_frames (fr_new resolution junk) ops in
    world_used (fr_new resolution junk) false false ops -> ~ In o (world_registered [] pre) -> kept F o x post ->
    exists k w, (forall fuel, (k <= fuel)%nat -> wd_run top topv fuel (wd_new resolution junk) ops = Ok w) /\ wd_frames w = F /\
    forall s vs, ob_shape x = Some s -> part s vs ->
    exists cs ls, Forall2 (fun v c => world_to_cell F (place (ob_pose x) v) false = Ok c) vs cs /\ draws_polygon cs ls /\
    forall occ, (forall c, inside (fr_rows F) (fr_cols F) c -> om_occupied (wd_map w) c = Ok (occ c)) -> walled (fr_rows F) (fr_cols F) occ ls.
  Proof using Ht Htv.
    intros ops F U Hn K. destruct (used_drawable _ _ _ _ _ _ _ U) as [(lb & Eb) Sz].
    assert (Hs : has_size ops) by (apply Exists_app; left; destruct Sz; [discriminate|auto]).
    destruct (world_agrees top topv Ht Htv resolution junk ops U Hs) as (k & w & g & E & _ & Ew & A). exists k, w. split; auto. split; auto. fold F in Ew. rewrite Ew in A.
    assert (Eb' : exists l, boundary_cells F x = Ok l).
    { assert (M : forall G l0 f1, kept G o x l0 -> forall l, boundary_cells f1 x = Ok l -> boundary_cells (world_frames f1 l0) x = Ok l).
      { clear. intros G l0. induction l0 as [|z r IH]; intros f1 HK l E; auto. inversion HK as [|? ? H1 H2]; subst. change (world_frames f1 (z :: r)) with (world_frames (frames_after f1 z) r). apply IH; auto.
        destruct z; try easy. cbn [frames_after]. now rewrite boundary_moved. }
      exists lb. unfold F, ops. rewrite world_frames_app. apply (M F (WAdd o x :: post)); auto. constructor; auto. }
    destruct Eb' as (l & El). intros s vs Es Hp. pose proof El as El'. unfold boundary_cells in El'. rewrite Es in El'.
    destruct (part_cells F (ob_pose x) s vs Hp l El') as (cs & l' & Ec & Ep & Hi). destruct (drawn_polygon _ _ _ _ Ep) as (ls & Hd & Hl).
    exists cs, ls. split; [|split; auto].
    - apply map_res_each in Ec. clear - Ec. remember (map (place (ob_pose x)) vs) as ws eqn:Ew. revert vs Ew. induction Ec as [|v c ws cs H1 H2 IH]; intros [|v' vs] Ew; try discriminate; [constructor|].
      injection Ew as -> ->. constructor; auto.
    - intros occ Hocc line c Hline Hc Hin. specialize (Hocc c Hin). rewrite (proj1 (A c Hin)) in Hocc. injection Hocc as <-.
      apply kept_occupied; auto. unfold draws. fold ops. fold F. rewrite El. apply existsb_cells. apply Hi. apply Hl. split; auto. now exists line.
  Qed.
End World.

Section Search.
  Variables top topv : nat -> list (cell * Z) -> nat.
  Hypotheses (Ht : Gvd_spec.priority top) (Htv : Gvd_spec.priority topv).
  Local Open Scope Z_scope.

  Lemma world_sides resolution junk pre o x post : let ops := pre ++ WAdd o x :: post in let F := world_frames (fr_new resolution junk) ops in
    let m := fr_rows F in let n := fr_cols F in
    world_used (fr_new resolution junk) false false ops -> ~ In o (world_registered [] pre) -> kept F o x post ->
    exists k w, (forall fuel, (k <= fuel)%nat -> wd_run top topv fuel (wd_new resolution junk) ops = Ok w) /\ wd_frames w = F /\
    forall s vs, ob_shape x = Some s -> part s vs ->
    exists cs ls, Forall2 (fun v c => world_to_cell F (place (ob_pose x) v) false = Ok c) vs cs /\ draws_polygon cs ls /\
    forall occ, (forall c, inside m n c -> om_occupied (wd_map w) c = Ok (occ c)) ->
    forall (C : Type) (ltb : C -> C -> bool) (add : C -> C -> C) (zero : C), strict_weak_order C ltb ->
    forall cost init goal, inside m n init -> inside m n goal -> occ init = false -> occ goal = false ->
      (forall h fuel sol st, n2_search ltb add zero m n cost occ h init goal fuel = Ok (Some sol, st) ->
        exists path, get_path (Some sol) = Ok path /\ on_one_side ls path /\ In init path /\ In goal path) /\
      (forall costr hf hr fuel b, bi_search cell_eqb ltb add zero hf hr (n2_succ m n cost occ) (n2_succ m n costr occ) true fuel init goal tt tt = Ok (true, b) ->
        exists path, bi_path (b_sol b) = Ok path /\ on_one_side ls path /\ In init path /\ In goal path) /\
      (enclosed ls init <> enclosed ls goal -> forall h fuel, (Z.to_nat m * Z.to_nat n < fuel)%nat ->
        exists st, n2_search ltb add zero m n cost occ h init goal fuel = Ok (None, st)).
  Proof using Ht Htv.
    intros ops F m n U Hn K. destruct (world_walls top topv Ht Htv resolution junk pre o x post U Hn K) as (k & w & E & Ew & H).
    exists k, w. split; auto. split; auto. intros s vs Es Hp. destruct (H s vs Es Hp) as (cs & ls & H1 & H2 & H3). exists cs, ls. split; auto. split; auto.
    intros occ Hocc C ltb add zero swo cost init goal Hi Hg Fi Fg. specialize (H3 occ Hocc). pose proof (draws_outline _ _ H2) as Ho. split; [|split].
    - intros h fuel sol st. apply (n2_side ltb add zero swo m n occ cs ls Ho H3); auto.
    - intros costr hf hr fuel b. apply (bi_side ltb add zero swo m n occ cs ls Ho H3); auto.
    - intros N h fuel Hf. apply (n2_apart ltb add zero swo m n occ cs ls Ho H3); auto.
  Qed.
End Search.
