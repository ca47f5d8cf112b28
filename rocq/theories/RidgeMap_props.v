(** Property C125 for an obstacle list: the edges of the Voronoi diagram lie between the obstacles that were added. *)
From Coq Require Import Reals Lra.
From Verif Require Import Base RealBase Grid_model Grid_spec Grid_proofs Raster_model Coords_model Shape_model Gvd_model World_model World_spec World_proofs WorldDemo_proofs
  WorldClear_proofs Ridge_spec Ridge_proofs RidgeMap_spec RidgeMap_proofs.
From Verif Require Gvd_spec Gvd_proofs.
From Coq Require Import ZifyBool ZifyNat ZifyN.
Local Open Scope Z_scope.

(** The size of the map is set, a diagram is created, obstacles are added, with updates in between, and the diagram is updated: nobody
    gets from the zone of one obstacle to the zone of another without crossing an edge, if the outlines of different obstacles are more
    than [sqrt 10] cells apart. Missing: obstacles that are nearer to each other, and removals. *)
Theorem C125_map_edges_separate_partial :
  forall top topv, Gvd_spec.priority top -> Gvd_spec.priority topv -> forall resolution junk pre width height body,
  let history := pre ++ WSize width height :: WGvd :: body ++ [WGvdUpdate] in
  world_used (fr_new resolution junk) false false history -> only_adds body ->
  let F := world_frames (fr_new resolution junk) (pre ++ [WSize width height]) in
  let xs := added (world_registered [] pre) body in
  (forall o y o' y' a b, In (o, y) xs -> In (o', y') xs -> o <> o' -> draws F y a = true -> draws F y' b = true -> 10 < Gvd_spec.sqd a b) ->
  exists k w g v, (forall fuel, (k <= fuel)%nat -> wd_run top topv fuel (wd_new resolution junk) history = Ok w) /\
    wd_dist w = Some g /\ g_vor g = Some v /\
    forall p s e o y o' y' a b, walk (fr_rows F) (fr_cols F) s p e -> In (o, y) xs -> In (o', y') xs -> o <> o' ->
      draws F y a = true -> draws F y' b = true -> nearest_obstacle (g_obs g) s = Ok a -> nearest_obstacle (g_obs g) e = Ok b ->
      exists c, In c (s :: p) /\ nearest_obstacle v c = Ok c.
Proof.
  intros top topv Ht Htv resolution junk pre width height body history U Ho F xs Hg.
  assert (Dj : no_common_cell F xs).
  { intros o y o' y' c I1 I2 N D1 D2. specialize (Hg o y o' y' c c I1 I2 N D1 D2). rewrite Gvd_proofs.sqd_refl in Hg. lia. }
  destruct (map_history top topv Ht Htv resolution junk pre width height body U Ho Dj) as (occ & ops & number & Hp & Hz & Hu & Hn & Hun & Hob & Hnum & Hrun).
  fold F xs in Hp, Hz, Hu, Hn, Hob, Hnum, Hrun.
  destruct (Hrun _ (separates_api _ _ Hp top topv Ht Htv number occ Hz ops Hu Hn Hun ltac:(
    intros a b Ha Hb Oa Ob Nn; apply Hob in Oa; auto; apply Hob in Ob; auto;
    apply existsb_exists in Oa as ([o y] & A1 & A2); apply existsb_exists in Ob as ([o' y'] & B1 & B2);
    apply (Hg o y o' y'); auto; apply (Hnum o y o' y' a b); auto))) as (k & w & g & E & Eg & v & Ev & A).
  exists k, w, g, v. split; auto. split; auto. split; auto. intros p s e o y o' y' a b Hw I1 I2 N D1 D2 Na Nb.
  pose proof (draws_inside F y a D1) as Ha. pose proof (draws_inside F y' b D2) as Hb. apply (A p s e a b); auto. now apply (Hnum o y o' y' a b).
Qed.
Print Assumptions C125_map_edges_separate_partial.

(** Every edge lies between two different obstacles, the distances to which differ by at most the diagonal of a cell, if the outlines
    of different obstacles have no cell in common. *)
Theorem C125_map_edges_between_obstacles_partial :
  forall top topv, Gvd_spec.priority top -> Gvd_spec.priority topv -> forall resolution junk pre width height body,
  let history := pre ++ WSize width height :: WGvd :: body ++ [WGvdUpdate] in
  world_used (fr_new resolution junk) false false history -> only_adds body ->
  let F := world_frames (fr_new resolution junk) (pre ++ [WSize width height]) in
  let xs := added (world_registered [] pre) body in
  no_common_cell F xs ->
  exists k w g v, (forall fuel, (k <= fuel)%nat -> wd_run top topv fuel (wd_new resolution junk) history = Ok w) /\
    wd_dist w = Some g /\ g_vor g = Some v /\
    forall s, inside (fr_rows F) (fr_cols F) s -> nearest_obstacle v s = Ok s ->
      exists o y o' y' a b, In (o, y) xs /\ In (o', y') xs /\ o <> o' /\ draws F y a = true /\ draws F y' b = true /\
        nearest_obstacle (g_obs g) s = Ok a /\ far a b /\
        (cell_distance s a <= cell_distance s b <= cell_distance s a + sqrt 2)%R.
Proof.
  intros top topv Ht Htv resolution junk pre width height body history U Ho F xs Dj.
  destruct (map_history top topv Ht Htv resolution junk pre width height body U Ho Dj) as (occ & ops & number & Hp & Hz & Hu & Hn & Hun & Hob & Hnum & Hrun).
  fold F xs in Hp, Hz, Hu, Hn, Hob, Hnum, Hrun.
  destruct (Hrun _ (ridge_api _ _ Hp top topv Ht Htv number occ ops Hz Hu Hn)) as (k & w & g & E & Eg & v & Ev & _ & A & _).
  exists k, w, g, v. split; auto. split; auto. split; auto. intros s Hs Hv.
  destruct (A Hun s Hs Hv) as (n & a & b & N1 & N2 & Ha & Hb & Na & Oa & Ob & Nn & Bo).
  apply Hob in Oa; auto. apply Hob in Ob; auto. apply existsb_exists in Oa as ([o y] & A1 & A2). apply existsb_exists in Ob as ([o' y'] & B1 & B2). cbn [snd] in A2, B2.
  exists o, y, o', y', a, b. do 2 (split; auto). split; [now apply (Hnum o y o' y' a b)|]. do 3 (split; auto). split; [apply Bo|]. exact (border_distance s n a b N2 Bo).
Qed.
Print Assumptions C125_map_edges_between_obstacles_partial.

(** Two squares, one inside the other, with an update in between. *)
Definition squares : list wop := [WAdd 0 (square 1); WUpdate; WAdd 1 (square 7); WAdd 0 (square 8)].
Example C125_squares : world_used f0 false false ([] ++ WSize 20 20 :: WGvd :: squares ++ [WGvdUpdate]) /\ only_adds squares /\
  world_frames f0 ([] ++ [WSize 20 20]) = demo20 /\ added (world_registered [] []) squares = [(0%nat, square 1); (1%nat, square 7)] /\
  (forall a b, draws demo20 (square 1) a = true -> draws demo20 (square 7) b = true -> 10 < Gvd_spec.sqd a b) /\
  draws demo20 (square 1) (Cell 9 9) = true /\ draws demo20 (square 7) (Cell 3 3) = true.
Proof.
  assert (D : forall h, h = 1 \/ h = 7 \/ h = 8 -> drawable demo20 (square h)).
  { intros h Hh. unfold drawable. rewrite square_cells by lia. destruct Hh as [->|[->| ->]]; eexists; vm_compute; reflexivity. }
  split.
  { cbn [squares app world_used frames_after]. unfold f0. rewrite demo20_init. split; [exists demo20; split; [reflexivity|unfold Gvd_spec.representable, Gvd_model.inf; cbn; lia]|].
    repeat (split; auto). }
  split; [repeat constructor|]. split; [unfold world_frames; cbn [app fold_left frames_after]; unfold f0; now rewrite demo20_init|]. split; [reflexivity|].
  assert (E1 : exists l1 l7, boundary_cells demo20 (square 1) = Ok l1 /\ boundary_cells demo20 (square 7) = Ok l7 /\
    forallb (fun a => forallb (fun b => 10 <? Gvd_spec.sqd a b) l7) l1 = true).
  { rewrite !square_cells by lia. do 2 eexists. split; [vm_compute; reflexivity|]. split; [vm_compute; reflexivity|]. vm_compute. reflexivity. }
  destruct E1 as (l1 & l7 & E1 & E7 & Hf). split.
  - unfold draws. rewrite E1, E7. intros a b Ha Hb. apply existsb_exists in Ha as (a' & Ha & Ea). apply existsb_exists in Hb as (b' & Hb & Eb).
    apply cell_eqb_eq in Ea. apply cell_eqb_eq in Eb. subst a' b'. rewrite forallb_forall in Hf. specialize (Hf a Ha).
    rewrite forallb_forall in Hf. specialize (Hf b Hb). lia.
  - unfold draws. rewrite !square_cells by lia. split; vm_compute; reflexivity.
Qed.
