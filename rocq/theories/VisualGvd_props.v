(** Property C88: the picture of the generalized Voronoi diagram. *)
From Coq Require Import Reals Lra.
From Verif Require Import Base RealBase Grid_model Grid_spec Coords_model ObstacleMap_model Gvd_model PathCost_model
  Shape_model World_model World_spec WorldDemo_proofs Planner_proofs Visual_model Visual_spec Query_model VisualGvd_proofs Query_props.
From Verif Require Gvd_spec.
From Coq Require Import ZifyBool ZifyNat ZifyN.
Local Open Scope R_scope.

(** [sense absf]: the name [abs] in the code refers to the function for [double] or to the one for [int]; both meet this. *)
Definition sense (absf : R -> R) : Prop := forall x, -1 <= x < 1 -> 0 <= absf x <= 1.

(** Right after an update, [Visualize] writes a well-formed picture of the size of the map. Covered cells are black, and so are all cells if none is covered. *)
Theorem C88_well_formed :
  forall top topv, Gvd_spec.priority top -> Gvd_spec.priority topv -> forall absf resolution junk ops alpha dMax, sense absf -> 0 < resolution -> 0 < alpha -> 0 < dMax ->
  world_used (fr_new resolution junk) false false (ops ++ [WGvdUpdate]) -> forall fuel w, wd_run top topv fuel (wd_new resolution junk) (ops ++ [WGvdUpdate]) = Ok w ->
  let F := world_frames (fr_new resolution junk) ops in
  let covered c := inside (fr_rows F) (fr_cols F) c /\ world_covered (fr_new resolution junk) [] false ops c = true in
  exists bytes p, diagram_picture absf alpha dMax w = Ok bytes /\ read_ppm bytes = Some p /\ p_width p = fr_rows F /\ p_height p = fr_cols F /\ p_max p = 255%Z /\
  (forall c, covered c -> shown p c = Some (0, 0, 0)%Z) /\
  ((forall o, ~ covered o) -> forall c, inside (fr_rows F) (fr_cols F) c -> shown p c = Some (0, 0, 0)%Z).
Proof.
  intros top topv Ht Htv absf resolution junk ops alpha dMax Hs Hr Ha Hm U fuel w E F covered.
  destruct (diagram_pictured top topv Ht Htv absf resolution junk ops alpha dMax Hs Hr Ha Hm U) as (k & w' & g & bytes & p & E' & _ & _ & P).
  assert (w' = w) as -> by (apply (wd_run_more _ _ _ (Nat.max k fuel)) in E; [|lia]; rewrite E' in E by lia; congruence).
  exists bytes, p. destruct P as (P1 & P2 & P3 & P4 & P5 & P6 & P7 & _). repeat (split; [assumption|]). assumption.
Qed.
Print Assumptions C88_well_formed.

(** If nothing was removed, each other cell has the hue of the number of the obstacle nearest to it, and the brightness that its path cost [x] leaves.
    A hue is three proportions, the largest 1 and the smallest 0, and depends on the number only. *)
Theorem C88_colors :
  forall top topv, Gvd_spec.priority top -> Gvd_spec.priority topv -> forall absf resolution junk ops alpha dMax, sense absf -> 0 < resolution -> 0 < alpha -> 0 < dMax ->
  world_used (fr_new resolution junk) false false (ops ++ [WGvdUpdate]) -> forall fuel w, wd_run top topv fuel (wd_new resolution junk) (ops ++ [WGvdUpdate]) = Ok w ->
  let F := world_frames (fr_new resolution junk) ops in
  let covered c := inside (fr_rows F) (fr_cols F) c /\ world_covered (fr_new resolution junk) [] false ops c = true in
  (forall o y, ~ In (WRemove o y) ops) -> (exists o, covered o) ->
  exists g bytes p hue, wd_dist w = Some g /\ diagram_picture absf alpha dMax w = Ok bytes /\ read_ppm bytes = Some p /\
  forall c, inside (fr_rows F) (fr_cols F) c -> ~ covered c ->
  exists o v x r g' b hr hg hb, nearest_obstacle (g_obs g) c = Ok o /\ covered o /\ om_value (wd_map w) o = Ok v /\ get_path_cost alpha dMax resolution g c = Ok (Some x) /\ 0 <= x <= 1 /\
  hue v = (hr, hg, hb) /\ 0 <= hr <= 1 /\ 0 <= hg <= 1 /\ 0 <= hb <= 1 /\ (hr = 1 \/ hg = 1 \/ hb = 1) /\ (hr = 0 \/ hg = 0 \/ hb = 0) /\
  shown p c = Some (r, g', b) /\
  IZR r <= 255 * ((1 - x) * hr) < IZR r + 1 /\ IZR g' <= 255 * ((1 - x) * hg) < IZR g' + 1 /\ IZR b <= 255 * ((1 - x) * hb) < IZR b + 1.
Proof.
  intros top topv Ht Htv absf resolution junk ops alpha dMax Hs Hr Ha Hm U fuel w E F covered Nr Ex.
  destruct (diagram_pictured top topv Ht Htv absf resolution junk ops alpha dMax Hs Hr Ha Hm U) as (k & w' & g & bytes & p & E' & Eg & _ & P1 & P2 & _ & _ & _ & _ & _ & num & Hn & Hv & P).
  assert (w' = w) as -> by (apply (wd_run_more _ _ _ (Nat.max k fuel)) in E; [|lia]; rewrite E' in E by lia; congruence).
  exists g, bytes, p, (fun v => hue absf (IZR v / IZR (num + 1))). split; auto. split; auto. split; auto. intros c Hc Nc.
  destruct (P Nr Ex c Hc Nc) as (o & v & x & r & g' & b & A1 & A2 & A3 & A4 & A5 & A6 & A7 & A8).
  pose proof (hue_range absf (IZR v / IZR (num + 1)) Hs (hue_argument v num ltac:(lia) (Hv o v (proj1 A2) A3))) as R. destruct (hue absf _) as [[hr hg] hb] eqn:EH.
  exists o, v, x, r, g', b, hr, hg, hb. cbv beta. destruct R as (R1 & R2 & R3 & R4 & R5). destruct A8 as (T1 & T2 & T3). repeat (split; [assumption|]). assumption.
Qed.
Print Assumptions C88_colors.

(** With the function for [double], obstacles of different numbers have different hues. *)
Theorem C88_hues_differ :
  forall top topv, Gvd_spec.priority top -> Gvd_spec.priority topv -> forall resolution junk ops alpha dMax, 0 < resolution -> 0 < alpha -> 0 < dMax ->
  world_used (fr_new resolution junk) false false (ops ++ [WGvdUpdate]) -> forall fuel w, wd_run top topv fuel (wd_new resolution junk) (ops ++ [WGvdUpdate]) = Ok w ->
  let F := world_frames (fr_new resolution junk) ops in
  let covered c := inside (fr_rows F) (fr_cols F) c /\ world_covered (fr_new resolution junk) [] false ops c = true in
  (forall o y, ~ In (WRemove o y) ops) -> (exists o, covered o) ->
  exists g bytes p hue, wd_dist w = Some g /\ diagram_picture Rabs alpha dMax w = Ok bytes /\ read_ppm bytes = Some p /\
  (forall c, inside (fr_rows F) (fr_cols F) c -> ~ covered c ->
   exists o v x r g' b hr hg hb, nearest_obstacle (g_obs g) c = Ok o /\ covered o /\ om_value (wd_map w) o = Ok v /\ get_path_cost alpha dMax resolution g c = Ok (Some x) /\
   hue v = (hr, hg, hb) /\ shown p c = Some (r, g', b) /\
   IZR r <= 255 * ((1 - x) * hr) < IZR r + 1 /\ IZR g' <= 255 * ((1 - x) * hg) < IZR g' + 1 /\ IZR b <= 255 * ((1 - x) * hb) < IZR b + 1) /\
  forall o o' v v', covered o -> covered o' -> om_value (wd_map w) o = Ok v -> om_value (wd_map w) o' = Ok v' -> hue v = hue v' -> v = v'.
Proof.
  intros top topv Ht Htv resolution junk ops alpha dMax Hr Ha Hm U fuel w E F covered Nr Ex.
  assert (Hs : sense Rabs) by (intros x Hx; split; [apply Rabs_pos|apply Rabs_le; lra]).
  destruct (diagram_pictured top topv Ht Htv Rabs resolution junk ops alpha dMax Hs Hr Ha Hm U) as (k & w' & g & bytes & p & E' & Eg & Ew & P1 & P2 & _ & _ & _ & _ & _ & num & Hn & Hv & P).
  assert (w' = w) as -> by (apply (wd_run_more _ _ _ (Nat.max k fuel)) in E; [|lia]; rewrite E' in E by lia; congruence).
  exists g, bytes, p, (fun v => hue Rabs (IZR v / IZR (num + 1))). split; auto. split; auto. split; auto. split.
  - intros c Hc Nc. destruct (P Nr Ex c Hc Nc) as (o & v & x & r & g' & b & A1 & A2 & A3 & A4 & A5 & A6 & A7 & A8). destruct (hue Rabs _) as [[hr hg] hb] eqn:EH.
    exists o, v, x, r, g', b, hr, hg, hb. cbv beta. destruct A8 as (T1 & T2 & T3). repeat (split; [assumption|]). assumption.
  - intros o o' v v' Co Co' Ev Ev' EH.
    pose proof (covered_value top topv Ht Htv resolution junk ops fuel w WGvdUpdate U (or_intror eq_refl) E o v (proj1 Co) (proj2 Co) Ev) as V. pose proof (covered_value top topv Ht Htv resolution junk ops fuel w WGvdUpdate U (or_intror eq_refl) E o' v' (proj1 Co') (proj2 Co') Ev') as V'.
    apply hue_distinct in EH; [|apply hue_argument; auto; apply (Hv o v (proj1 Co) Ev)|apply hue_argument; auto; apply (Hv o' v' (proj1 Co') Ev')].
    apply eq_IZR. assert (0 < IZR (num + 1)) by (apply (IZR_lt 0); lia). apply Rmult_eq_reg_r with (/ IZR (num + 1)); [exact EH|]. apply Rinv_neq_0_compat. lra.
Qed.
Print Assumptions C88_hues_differ.

(** Both functions make sense; the map of C87_demo meets the other hypotheses. *)
Example C88_demo : sense Rabs /\ sense (fun x => Rabs (IZR (Rtrunc x))) /\ ~ (forall x, -1 <= x < 1 -> Rabs (IZR (Rtrunc x)) = Rabs x).
Proof.
  split; [intros x Hx; split; [apply Rabs_pos|apply Rabs_le; lra]|]. split.
  - intros x Hx. split; [apply Rabs_pos|]. apply Rabs_le. destruct (Rtrunc_spec x) as [(_ & B & C)|(A & B & C)]; apply IZR_le in C; lra.
  - intros H. specialize (H (1 / 2) ltac:(lra)). assert (Rtrunc (1 / 2) = 0%Z) as T.
    { destruct (Rtrunc_spec (1 / 2)) as [(_ & B & C)|(A & _)]; [|lra]. assert (IZR (Rtrunc (1 / 2)) < 1) as D by lra. apply (lt_IZR _ 1) in D. lia. }
    rewrite T in H. rewrite Rabs_R0 in H. rewrite Rabs_right in H; lra.
Qed.
