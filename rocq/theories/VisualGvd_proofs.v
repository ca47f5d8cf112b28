(** The picture of the diagram. *)
From Coq Require Import Reals Lra.
From Verif Require Import Base RealBase Grid_model Grid_spec Coords_model Coords_proofs ObstHeur_model ObstHeur_proofs ObstacleMap_model
  Gvd_model Gvd_api_proofs PathCost_model World_model World_spec World_proofs WorldClear_proofs Visual_model Visual_spec Visual_proofs VisualCost_proofs Query_model Query_proofs.
From Verif Require Gvd_spec.
From Coq Require Import ZifyBool ZifyNat ZifyN.
Local Open Scope R_scope.

(** * Colors *)
Definition hue (absf : R -> R) (h : R) : R * R * R :=
  let x := 1 - absf (rfmod (h * 360 / 60) 2 - 1) in
  let H := h * 360 in
  if Rleb 0 H && Rltb H 60 then (1, x, 0)
  else if Rleb 60 H && Rltb H 120 then (x, 1, 0)
  else if Rleb 120 H && Rltb H 180 then (0, 1, x)
  else if Rleb 180 H && Rltb H 240 then (0, x, 1)
  else if Rleb 240 H && Rltb H 300 then (x, 0, 1)
  else (1, 0, x).

Lemma hsv_hue absf h l : hsv_to_rgb absf h 1 l =
  let '(r, g, b) := hue absf h in (Rtrunc (255 * (l * r)), Rtrunc (255 * (l * g)), Rtrunc (255 * (l * b))).
Proof.
  unfold hsv_to_rgb, hue. set (x := absf _). clearbody x.
  destruct (_ && _); [|destruct (_ && _); [|destruct (_ && _); [|destruct (_ && _); [|destruct (_ && _)]]]]; (f_equal; [f_equal|]); f_equal; field.
Qed.

Lemma rfmod_range x : 0 <= x -> 0 <= rfmod x 2 < 2.
Proof. intros Hx. unfold rfmod. destruct (Rtrunc_spec (x / 2)) as [(_ & B & _)|(A & _)]; lra. Qed.

Lemma hue_range absf h : (forall x, -1 <= x < 1 -> 0 <= absf x <= 1) -> 0 <= h < 1 ->
  let '(r, g, b) := hue absf h in 0 <= r <= 1 /\ 0 <= g <= 1 /\ 0 <= b <= 1 /\ (r = 1 \/ g = 1 \/ b = 1) /\ (r = 0 \/ g = 0 \/ b = 0).
Proof.
  intros Ha Hh. unfold hue. pose proof (rfmod_range (h * 360 / 60) ltac:(lra)) as M. pose proof (Ha (rfmod (h * 360 / 60) 2 - 1) ltac:(lra)) as A. set (x := absf _) in *. clearbody x.
  destruct (_ && _); [|destruct (_ && _); [|destruct (_ && _); [|destruct (_ && _); [|destruct (_ && _)]]]]; repeat split; try lra; auto.
Qed.

Lemma rfmod_part x n : IZR (2 * n) <= x < IZR (2 * n) + 2 -> 0 <= x -> rfmod x 2 = x - IZR (2 * n).
Proof.
  intros Hx H0. unfold rfmod. destruct (Rtrunc_spec (x / 2)) as [(_ & B & _)|(A & _)]; [|lra]. rewrite mult_IZR in *.
  assert (Rtrunc (x / 2) = n) as -> by (assert (IZR (Rtrunc (x / 2)) < IZR n + 1) as P by lra; assert (IZR n < IZR (Rtrunc (x / 2)) + 1) as Q by lra; rewrite <- plus_IZR in P, Q; apply lt_IZR in P, Q; lia). ring.
Qed.

Lemma hue_segment h : 0 <= h < 1 -> let u := h * 6 in
  (0 <= u < 1 /\ hue Rabs h = (1, u, 0)) \/ (1 <= u < 2 /\ hue Rabs h = (2 - u, 1, 0)) \/ (2 <= u < 3 /\ hue Rabs h = (0, 1, u - 2)) \/
  (3 <= u < 4 /\ hue Rabs h = (0, 4 - u, 1)) \/ (4 <= u < 5 /\ hue Rabs h = (u - 4, 0, 1)) \/ (5 <= u < 6 /\ hue Rabs h = (1, 0, 6 - u)).
Proof.
  intros Hh u. unfold hue. replace (h * 360 / 60) with u by (unfold u; field). assert (E : h * 360 = 60 * u) by (unfold u; ring). rewrite E. assert (Hu : 0 <= u < 6) by (unfold u; lra). clearbody u. clear E Hh.
  assert (P : forall n, IZR (2 * n) <= u < IZR (2 * n) + 2 -> rfmod u 2 = u - IZR (2 * n)) by (intros n Hn; apply rfmod_part; lra).
  Ltac ev := repeat match goal with |- context [Rleb ?a ?b] => destruct (Rleb_spec a b); try (exfalso; lra) | |- context [Rltb ?a ?b] => destruct (Rltb_spec a b); try (exfalso; lra) end; cbn [andb].
  destruct (Rlt_dec u 1); [left|destruct (Rlt_dec u 2); [right; left|destruct (Rlt_dec u 3); [right; right; left|destruct (Rlt_dec u 4); [do 3 right; left|destruct (Rlt_dec u 5); [do 4 right; left|do 5 right]]]]];
  (split; [lra|]); ev.
  - rewrite (P 0%Z) by (cbn; lra). rewrite Rabs_left1 by (cbn; lra). do 2 f_equal. cbn. ring.
  - rewrite (P 0%Z) by (cbn; lra). rewrite Rabs_right by (cbn; lra). do 2 f_equal. cbn. ring.
  - rewrite (P 1%Z) by (cbn; lra). rewrite Rabs_left1 by (cbn; lra). f_equal. cbn. ring.
  - rewrite (P 1%Z) by (cbn; lra). rewrite Rabs_right by (cbn; lra). do 2 f_equal. cbn. ring.
  - rewrite (P 2%Z) by (cbn; lra). rewrite Rabs_left1 by (cbn; lra). do 2 f_equal. cbn. ring.
  - rewrite (P 2%Z) by (cbn; lra). rewrite Rabs_right by (cbn; lra). f_equal. cbn. ring.
Qed.

Lemma hue_distinct h h' : 0 <= h < 1 -> 0 <= h' < 1 -> hue Rabs h = hue Rabs h' -> h = h'.
Proof.
  intros H H' E. pose proof (hue_segment h H) as A. pose proof (hue_segment h' H') as A'. cbv zeta in A, A'. rewrite E in A. clear E.
  destruct A' as [(B & X')|[(B & X')|[(B & X')|[(B & X')|[(B & X')|(B & X')]]]]];
    destruct A as [(D & X)|[(D & X)|[(D & X)|[(D & X)|[(D & X)|(D & X)]]]]]; rewrite X' in X; injection X; intros; lra.
Qed.

Lemma trunc_byte x : 0 <= x <= 255 -> (Rtrunc x mod 256 = Rtrunc x)%Z /\ IZR (Rtrunc x) <= x < IZR (Rtrunc x) + 1.
Proof.
  intros Hx. destruct (Rtrunc_spec x) as [(_ & B & C)|(A & _)]; [|lra]. split; [|exact B]. apply Z.mod_small. split; auto. apply lt_IZR. lra.
Qed.

Lemma hue_argument v num : (0 <= v)%Z -> (v <= num)%Z -> 0 <= IZR v / IZR (num + 1) < 1.
Proof.
  intros Hy Hy2. assert (0 < IZR (num + 1)) by (apply (IZR_lt 0); lia). split; [apply Rmult_le_pos; [now apply (IZR_le 0)|left; now apply Rinv_0_lt_compat]|].
  apply Rmult_lt_reg_r with (IZR (num + 1)); auto. unfold Rdiv. rewrite Rmult_assoc, Rinv_l, Rmult_1_r, Rmult_1_l by lra. apply IZR_lt. lia.
Qed.

(** * The largest number *)
Lemma max_value_spec m l : (forall c, In c l -> exists v, om_value m c = Ok v) -> forall best, exists num, max_value m l best = Ok num /\ (best <= num)%Z /\ forall c v, In c l -> om_value m c = Ok v -> (v <= num)%Z.
Proof.
  induction l as [|c l IH]; intros H best; cbn [max_value]; [exists best; split; auto; split; [lia|intros c v []]|].
  destruct (H c (or_introl eq_refl)) as (v & E). rewrite E. cbn [bind]. destruct (IH (fun c' H' => H c' (or_intror H')) (Z.max best v)) as (num & En & Hn & P). exists num. split; auto. split; [lia|].
  intros c' v' [<-|Hc'] E'; [|eauto]. assert (v' = v) by congruence. lia.
Qed.

Section Picture.
Variables top topv : nat -> list (cell * Z) -> nat.
Hypothesis Htop : Gvd_spec.priority top.
Hypothesis Htopv : Gvd_spec.priority topv.

Lemma value_of m c b : om_occupied m c = Ok b -> exists v, om_value m c = Ok v /\ b = (0 <=? v)%Z.
Proof.
  unfold om_occupied, om_value. destruct (om_matrix m) as [g|]; [|discriminate]. destruct (grid_get g c) as [v| | |]; try discriminate. cbn [bind]. intros E. exists v. split; congruence.
Qed.

Lemma covered_value resolution junk ops fuel w last : world_used (fr_new resolution junk) false false (ops ++ [last]) -> updates last ->
  wd_run top topv fuel (wd_new resolution junk) (ops ++ [last]) = Ok w -> let F := world_frames (fr_new resolution junk) ops in
  forall c v, inside (fr_rows F) (fr_cols F) c -> world_covered (fr_new resolution junk) [] false ops c = true -> om_value (wd_map w) c = Ok v -> (0 <= v)%Z.
Proof.
  intros U L E F c v Hc Cc Ev. destruct (world_agrees top topv Htop Htopv resolution junk _ U) as (k & w' & g & E' & _ & Ew & Ag).
  { apply (used_size last) with (f := fr_new resolution junk) (md := false); [apply in_or_app; right; now left|destruct L; auto|exact U]. }
  assert (w' = w) as -> by (apply (Planner_proofs.wd_run_more _ _ _ (Nat.max k fuel)) in E; [|lia]; rewrite E' in E by lia; congruence).
  assert (EF : wd_frames w = F) by (rewrite Ew; unfold F, world_frames; rewrite fold_left_app; destruct L as [-> | ->]; reflexivity). rewrite EF in Ag.
  destruct (Ag c Hc) as (O & _). destruct (value_of _ _ _ O) as (v' & Ev' & B). assert (v' = v) as -> by congruence.
  assert (X : world_covered (fr_new resolution junk) [] false (ops ++ [last]) c = world_covered (fr_new resolution junk) [] false ops c).
  { clear - L. generalize (fr_new resolution junk) (@nil nat) false. induction ops as [|y r IH]; intros f reg old; cbn; [destruct L as [-> | ->]; reflexivity|]. apply IH. }
  rewrite X, Cc in B. lia.
Qed.

Lemma diagram_pictured absf resolution junk ops alpha dMax : (forall x, -1 <= x < 1 -> 0 <= absf x <= 1) -> 0 < resolution -> 0 < alpha -> 0 < dMax ->
  world_used (fr_new resolution junk) false false (ops ++ [WGvdUpdate]) ->
  let F := world_frames (fr_new resolution junk) ops in
  let covered c := inside (fr_rows F) (fr_cols F) c /\ world_covered (fr_new resolution junk) [] false ops c = true in
  exists k w g bytes p, (forall fuel, (k <= fuel)%nat -> wd_run top topv fuel (wd_new resolution junk) (ops ++ [WGvdUpdate]) = Ok w) /\ wd_dist w = Some g /\ wd_frames w = F /\
  diagram_picture absf alpha dMax w = Ok bytes /\ read_ppm bytes = Some p /\ p_width p = fr_rows F /\ p_height p = fr_cols F /\ p_max p = 255%Z /\
  (forall c, covered c -> shown p c = Some (0, 0, 0)%Z) /\
  ((forall o, ~ covered o) -> forall c, inside (fr_rows F) (fr_cols F) c -> shown p c = Some (0, 0, 0)%Z) /\
  exists num, (0 <= num)%Z /\ (forall c v, inside (fr_rows F) (fr_cols F) c -> om_value (wd_map w) c = Ok v -> (v <= num)%Z) /\
  ((forall o y, ~ In (WRemove o y) ops) -> (exists o, covered o) -> forall c, inside (fr_rows F) (fr_cols F) c -> ~ covered c ->
   exists o v x r g' b, nearest_obstacle (g_obs g) c = Ok o /\ covered o /\ om_value (wd_map w) o = Ok v /\ (0 <= v)%Z /\ get_path_cost alpha dMax resolution g c = Ok (Some x) /\ 0 <= x <= 1 /\
     shown p c = Some (r, g', b) /\
     let '(hr, hg, hb) := hue absf (IZR v / IZR (num + 1)) in
     IZR r <= 255 * ((1 - x) * hr) < IZR r + 1 /\ IZR g' <= 255 * ((1 - x) * hg) < IZR g' + 1 /\ IZR b <= 255 * ((1 - x) * hb) < IZR b + 1).
Proof.
  intros Habs Hres Ha Hm U F covered. assert (EF : fr_res F = resolution) by (unfold F; rewrite frames_res; reflexivity).
  destruct (world_updated top topv Htop Htopv resolution junk ops WGvdUpdate U (or_intror eq_refl)) as (gops & occ & k1 & w & g & E1 & Eg & Ew & Hp & Hz & Hu & Hc & Hun & K).
  destruct (diagram_costs top topv Htop Htopv resolution junk ops alpha dMax Hres Ha Hm U) as (k2 & w2 & g2 & v & E2 & Eg2 & Ev & Hv & Hx).
  assert (w2 = w) as -> by (specialize (E1 (Nat.max k1 k2) ltac:(lia)); rewrite E2 in E1 by lia; congruence). assert (g2 = g) as -> by congruence. clear E2 Eg2.
  fold F in Ew, Hp, Hz, Hu, Hc, Hv, Hx. set (ins := inside (fr_rows F) (fr_cols F)) in *.
  assert (Hs : has_size (ops ++ [WGvdUpdate])) by (apply (used_size WGvdUpdate) with (f := fr_new resolution junk) (md := false); auto; apply in_or_app; right; now left).
  destruct (world_agrees top topv Htop Htopv resolution junk _ U Hs) as (k3 & w3 & g3 & E3 & Eg3 & Ew3 & Ag).
  assert (w3 = w) as -> by (specialize (E1 (Nat.max k1 k3) ltac:(lia)); rewrite E3 in E1 by lia; congruence). assert (g3 = g) as -> by congruence. clear E3 Eg3 Ew3. rewrite Ew in Ag.
  assert (Occ : forall c, ins c -> om_occupied (wd_map w) c = Ok (world_covered (fr_new resolution junk) [] false ops c)).
  { intros c Hi. rewrite (proj1 (Ag c Hi)). f_equal. clear. generalize (fr_new resolution junk) (@nil nat) false. induction ops as [|y r IH]; intros f reg old; cbn; [reflexivity|]. apply IH. }
  assert (Hrep : (fun d => (forall c, ins c -> Gvd_spec.consistent (fr_rows F) (fr_cols F) d c) /\ ((exists o, ins o /\ Gvd_spec.obstacle gops o) -> forall c, ins c -> exists o, nearest_obstacle d c = Ok o /\ ins o) /\
    ((forall o, ins o -> ~ Gvd_spec.obstacle gops o) -> forall c, ins c -> nearest_obstacle d c = Ok no_cell) /\
    (existsb Gvd_spec.is_unset gops = false -> forall c o e, ins c -> ins o -> nearest_obstacle d c = Ok o -> squared_distance_to_obstacle d c = Ok e -> Gvd_spec.obstacle gops o)) (g_obs g)).
  { apply K. destruct (api_reports _ _ Hp top topv Htop Htopv occ Hz gops Hu) as (k' & st0 & st & Q0 & Q & H1 & H2 & H3).
    destruct (api_consistent _ _ Hp top topv Htop Htopv occ Hz _ Hu) as (k'' & st0' & st' & Q0' & Q' & H4 & _).
    assert (st0' = st0) as -> by congruence. assert (st' = st) as -> by (specialize (Q (Nat.max k' k'') ltac:(lia)); rewrite Q' in Q by lia; congruence).
    exists k', st0, st. split; auto. split; auto. split; auto. split; auto. split; [intros N c Q1; exact (proj1 (H2 N c Q1))|].
    intros Hn c' o e Q1 Q2 Q3 Q4. exact (proj1 (H3 Hn c' o e Q1 Q2 Q3 Q4)). }
  destruct Hrep as (R0 & R1 & R2 & R3).
  assert (Cv : forall c, covered c <-> ins c /\ Gvd_spec.obstacle gops c) by (intros c; unfold covered, Gvd_spec.obstacle; fold ins; split; intros [A B]; split; auto; [rewrite <- Hc|rewrite Hc]; auto).
  destruct (max_value_spec (wd_map w) (map_cells (fr_rows F) (fr_cols F))) with (best := 0%Z) as (num & En & Hn & Hmax).
  { intros c Hi. apply map_cells_In in Hi. destruct (value_of _ _ _ (Occ c Hi)) as (x & E & _). eauto. }
  set (color := gvd_color absf (wd_map w) (g_obs g) (get_path_cost alpha dMax (fr_res F) g) num).
  assert (Col : forall c, ins c -> (covered c /\ color c = Ok (0, 0, 0)%Z) \/ (~ covered c /\ nearest_obstacle (g_obs g) c = Ok no_cell /\ color c = Ok (0, 0, 0)%Z) \/
    (~ covered c /\ exists o v x, nearest_obstacle (g_obs g) c = Ok o /\ ins o /\ om_value (wd_map w) o = Ok v /\ get_path_cost alpha dMax resolution g c = Ok (Some x) /\ 0 <= x <= 1 /\ color c = Ok (hsv_to_rgb absf (IZR v / IZR (num + 1)) 1 (1 - x)))).
  { intros c Hi. unfold color, gvd_color. rewrite (Occ c Hi). cbn [bind]. destruct (world_covered _ _ _ _ c) eqn:Ec; [left; split; [now split|reflexivity]|]. right.
    assert (Nc : ~ covered c) by (intros [_ Q]; congruence).
    destruct (R0 c Hi) as [(N & _)|(o & N & Io & _)]; rewrite N; cbn [bind]; [left; auto|right]. split; auto.
    assert (cell_is_valid o = true) as -> by (destruct Io as [[? _] [? _]]; unfold cell_is_valid; lia). cbn [negb].
    destruct (value_of _ _ _ (Occ o Io)) as (y & Ey & _). rewrite Ey. cbn [bind]. rewrite EF. destruct (Hx c Hi) as (x & Ex & X & _). rewrite Ex. cbn [bind].
    exists o, y, x. repeat (split; [assumption || reflexivity|]). rewrite Rmin_left by lra. rewrite Rmax_right by lra. reflexivity. }
  destruct (file_read (fr_rows F) (fr_cols F) color) as (bytes & p & Ef & Ep & P1 & P2 & P3 & P4).
  { destruct Hp as (? & _). lia. }
  { destruct Hp as (_ & ? & _). lia. }
  { intros c Hi. destruct (Col c Hi) as [(_ & ->)|[(_ & _ & ->)|(_ & o & y & x & _ & _ & _ & _ & _ & ->)]]; eauto. destruct (hsv_to_rgb _ _ _ _) as [[? ?] ?]. eauto. }
  exists k1, w, g, bytes, p. split; auto. split; auto. split; auto. split; [unfold diagram_picture; rewrite Eg, Ew; unfold gvd_picture; rewrite En; exact Ef|].
  repeat (split; [assumption|]). split; [|split; [|exists num; split; auto; split]].
  - intros c Cc. pose proof Cc as [Hi _]. destruct (Col c Hi) as [(_ & E)|[(N & _)|(N & _)]]; [exact (P4 c _ _ _ Hi E)|now destruct N..].
  - intros No c Hi. assert (N : nearest_obstacle (g_obs g) c = Ok no_cell) by (apply R2; auto; intros o Io Oo; apply (No o); now apply Cv).
    destruct (Col c Hi) as [(_ & E)|[(_ & _ & E)|(_ & o & y & x & N' & Io & _)]]; [exact (P4 c _ _ _ Hi E)|exact (P4 c _ _ _ Hi E)|]. assert (o = no_cell) as -> by congruence. destruct Io as [[Q _] _]. cbn in Q. lia.
  - intros c y Hi. apply Hmax. now apply map_cells_In.
  - intros Nr (o' & Co) c Hi Nc. apply Cv in Co as [Io' Oo']. destruct (R1 (ex_intro _ o' (conj Io' Oo')) c Hi) as (o & Eo & Io).
    destruct (Col c Hi) as [(N & _)|[(_ & N & _)|(_ & o2 & y & x & N & _ & Ey & Ex & X & E)]]; [now destruct Nc|assert (o = no_cell) as -> by congruence; destruct Io as [[Q _] _]; cbn in Q; lia|].
    assert (o2 = o) as -> by congruence.
    assert (Ho : Gvd_spec.obstacle gops o).
    { destruct (R0 c Hi) as [(Q1 & Q2)|(o3 & Q1 & _ & Q2)]; [exact (R3 (Hun Nr) c o _ Hi Io Eo Q2)|exact (R3 (Hun Nr) c o _ Hi Io Eo Q2)]. }
    pose proof (proj2 (Cv o) (conj Io Ho)) as Co.
    assert (Hy : (0 <= y)%Z). { destruct (value_of _ _ _ (Occ o Io)) as (y' & Ey' & B). assert (y' = y) as -> by congruence. rewrite (proj2 Co) in B. lia. }
    assert (Hy2 : (y <= num)%Z) by (apply (Hmax o); auto; now apply map_cells_In).
    pose proof (hue_argument y num Hy Hy2) as Hh.
    pose proof (hue_range absf _ Habs Hh) as Hr. rewrite hsv_hue in E. destruct (hue absf (IZR y / IZR (num + 1))) as [[hr hg] hb] eqn:EH. destruct Hr as (B1 & B2 & B3 & _).
    assert (Bt : forall z, 0 <= z <= 1 -> 0 <= 255 * ((1 - x) * z) <= 255) by (intros z Hz'; split; nra).
    destruct (trunc_byte _ (Bt hr B1)) as [M1 T1]. destruct (trunc_byte _ (Bt hg B2)) as [M2 T2]. destruct (trunc_byte _ (Bt hb B3)) as [M3 T3].
    pose proof (P4 c _ _ _ Hi E) as Sh. rewrite M1, M2, M3 in Sh.
    eexists o, y, x, _, _, _. split; [exact Eo|]. split; [exact Co|]. split; [exact Ey|]. split; [exact Hy|]. split; [exact Ex|]. split; [exact X|]. split; [exact Sh|]. rewrite EH. auto.
Qed.
End Picture.
