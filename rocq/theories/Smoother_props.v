(** Properties C31, C32, C62 and C63 of the smoother. *)
From Coq Require Import Reals Lra Sorted.
From Verif Require Import Base RealBase Grid_model Coords_model Coords_proofs Straight_model PathCost_model
  Smoother_model Smoother_spec Smoother_proofs SmootherGrad_model SmootherGrad_spec SmootherGrad_proofs.
From Coq Require Import ZifyBool ZifyNat ZifyN.
Local Open Scope Z_scope.

(** C31, whatever the gradients are; all that matters is that a zero gradient does not move a point. A pose is a position
    and a heading. *)
Theorem C31_smoothing_keeps :
  forall P T G (zero : G) local curv move norm (valid : P * T -> res bool) maxIterations tolerance fuel old path cusp s out,
  (forall x, move x zero = x) ->
  smooth P T G zero local curv move norm valid maxIterations tolerance fuel true old path cusp = Ok (s, out) ->
  length out = length path /\ map snd out = map snd path /\
  nth_error out 0 = nth_error path 0 /\ nth_error out (length path - 1) = nth_error path (length path - 1) /\
  (forall k, cusp (Z.of_nat k) = true -> nth_error out k = nth_error path k) /\
  (0 <= code s -> forall x, In x out -> valid x = Ok true).
Proof.
  intros * Hm E.
  destruct (smooth_cases P T G zero local curv move norm valid maxIterations tolerance Hm fuel old path cusp)
    as [(s' & out' & E' & A & B & C & V & _)|[[_ N]|[[_ N]|[_ N]]]]; [| | |congruence]; try (exfalso; now apply (N (s, out))).
  assert (s' = s) as -> by congruence. assert (out' = out) as -> by congruence.
  split; auto. split; auto. split; [|split; [|split]].
  - apply C. intros i Hi [K _]. lia.
  - apply C. intros i Hi [K _]. lia.
  - intros k Hk. apply C. intros i Hi [_ K]. rewrite K in Hk; [discriminate|lia].
  - intros Hs. destruct V as [[-> _]|(_ & _ & V)]; auto. cbn in Hs. lia.
Qed.
Print Assumptions C31_smoothing_keeps.

(** A negative status means that a pose is not valid. *)
Theorem C31_failure_reason :
  forall P T G (zero : G) local curv move norm (valid : P * T -> res bool) maxIterations tolerance fuel old path cusp s out,
  (forall x, move x zero = x) ->
  smooth P T G zero local curv move norm valid maxIterations tolerance fuel true old path cusp = Ok (s, out) ->
  code s < 0 -> exists x, In x out /\ valid x = Ok false.
Proof.
  intros * Hm E Hs.
  destruct (smooth_cases P T G zero local curv move norm valid maxIterations tolerance Hm fuel old path cusp)
    as [(s' & out' & E' & A & B & C & V & _)|[[_ N]|[[_ N]|[_ N]]]]; [| | |congruence]; try (exfalso; now apply (N (s, out))).
  assert (s' = s) as -> by congruence. assert (out' = out) as -> by congruence.
  destruct V as [[_ V]|(F & Cl & _)]; auto. exfalso. destruct s; cbn in Hs; try lia; congruence.
Qed.
Print Assumptions C31_failure_reason.

(** Smoothing ends and makes no access outside its arrays: it is defined as soon as the gradient terms and the validity
    check are. *)
Theorem C31_smoothing_total :
  forall P T G (zero : G) local curv move norm (valid : P * T -> res bool) maxIterations tolerance fuel old path cusp,
  (forall x, move x zero = x) -> maxIterations <= Z.of_nat fuel ->
  (forall o g a b c d e, exists g', local o g a b c d e = Ok g') -> (forall a b c g, exists g', curv a b c g = Ok g') ->
  (forall x, exists v, valid x = Ok v) ->
  exists s out, smooth P T G zero local curv move norm valid maxIterations tolerance fuel true old path cusp = Ok (s, out).
Proof.
  intros * Hm Hf Hl Hc Hv.
  destruct (smooth_cases P T G zero local curv move norm valid maxIterations tolerance Hm fuel old path cusp)
    as [(s & out & E & _)|[[U _]|[[U _]|[F _]]]]; eauto; exfalso; [| |lia].
  - destruct U as [(o & g & a & b & c & d & e & U)|(a & b & c & g & U)].
    + destruct (Hl o g a b c d e) as [g' E]. now apply (U g').
    + destruct (Hc a b c g) as [g' E]. now apply (U g').
  - destruct U as (x & U). destruct (Hv x) as [v E]. now apply (U v).
Qed.
Print Assumptions C31_smoothing_total.

(** Without a validator, a map and a distance map, the path of an earlier call stays. *)
Theorem C31_uninitialized :
  forall P T G (zero : G) local curv move norm (valid : P * T -> res bool) maxIterations tolerance fuel old path cusp,
  smooth P T G zero local curv move norm valid maxIterations tolerance fuel false old path cusp = Ok (Failure, old).
Proof. reflexivity. Qed.
Print Assumptions C31_uninitialized.

(** C32: the indices whose gradient is computed, each once and in order. *)
Theorem C32_optimized_indices :
  forall cusp n, exists l, select n cusp (Z.of_nat n) 0 = Ok l /\ StronglySorted Z.lt l /\
  forall k, In k l <-> 2 <= k <= Z.of_nat n - 3 /\ forall j, k - 2 <= j <= k + 2 -> cusp j = false.
Proof. exact select_spec. Qed.
Print Assumptions C32_optimized_indices.

(** Only these samples and their neighbours are moved, ... *)
Theorem C32_other_samples_stay :
  forall P T G (zero : G) local curv move norm (valid : P * T -> res bool) maxIterations tolerance fuel old path cusp s out,
  (forall x, move x zero = x) ->
  smooth P T G zero local curv move norm valid maxIterations tolerance fuel true old path cusp = Ok (s, out) ->
  forall k, (forall i, Z.of_nat k - 1 <= i <= Z.of_nat k + 1 -> ~ optimized (Z.of_nat (length path)) cusp i) ->
  nth_error out k = nth_error path k.
Proof.
  intros * Hm E.
  destruct (smooth_cases P T G zero local curv move norm valid maxIterations tolerance Hm fuel old path cusp)
    as [(s' & out' & E' & A & B & C & V & _)|[[_ N]|[[_ N]|[_ N]]]]; [| | |congruence]; try (exfalso; now apply (N (s, out))).
  assert (out' = out) as -> by congruence. exact C.
Qed.
Print Assumptions C32_other_samples_stay.

Example indices_around_a_cusp : select 20 (fun k => k =? 9) 20 0 = Ok [2; 3; 4; 5; 6; 12; 13; 14; 15; 16; 17].
Proof. vm_compute. reflexivity. Qed.
Example indices_of_short_path : select 5 (fun _ => false) 5 0 = Ok [2].
Proof. vm_compute. reflexivity. Qed.

Local Open Scope R_scope.

(** C62. Each term is the gradient of its objective. Smoothing: the squared second differences. *)
Theorem C62_smoothing_gradient :
  forall w xm2 xm1 x xp1 xp2,
  gradient (fun p => w / 2 * (bend xm2 xm1 p + bend xm1 p xp1 + bend p xp1 xp2)) x (smoothing_term w xm2 xm1 x xp1 xp2).
Proof. exact smoothing_gradient. Qed.
Print Assumptions C62_smoothing_gradient.

(** Collision: the squared lack of distance to the nearest obstacle [o]. *)
Theorem C62_collision_gradient :
  forall w r o x, gap o x <> 0 -> gradient (fun p => w / 2 * (gap o p - r) ^ 2) x (collision_term w r (psub x o)).
Proof. exact collision_gradient. Qed.
Print Assumptions C62_collision_gradient.

(** Voronoi field: the cost that the distance maps report (C27), at the position instead of the cell, ... *)
Theorem C62_voronoi_gradient :
  forall w alpha dMax o v x, 0 < alpha -> 0 < dMax -> gap o x <> 0 -> gap v x <> 0 ->
  gradient (fun p => w * field alpha dMax (gap o p) (gap v p)) x (voronoi_term w alpha dMax (psub x o) (psub x v)).
Proof. exact voronoi_gradient. Qed.
Print Assumptions C62_voronoi_gradient.

Theorem C62_field_is_path_cost :
  forall alpha dMax d v, 0 <= d < dMax -> 0 <= v -> 0 < d + v -> path_cost alpha dMax d v = Some (field alpha dMax d v).
Proof.
  intros alpha dMax d v Hd Hv Hs. unfold path_cost. destruct (Rleb_spec dMax d); [exfalso; lra|].
  destruct (Reqb_spec (d + v) 0); [exfalso; lra|]. reflexivity.
Qed.
Print Assumptions C62_field_is_path_cost.

(** Curvature: the squared excess over the bound, for all three samples; no gradient if the bound is met. *)
Theorem C62_curvature_gradient :
  forall w k xm x xp gm gi gp gm' gi' gp',
  curvature_term w k xm x xp (gm, gi, gp) = Ok (gm', gi', gp') ->
  (curvature xm x xp <= k -> gm' = gm /\ gi' = gi /\ gp' = gp) /\
  (k < curvature xm x xp ->
   gradient (fun p => w / 2 * (curvature p x xp - k) ^ 2) xm (psub gm' gm) /\
   gradient (fun p => w / 2 * (curvature xm p xp - k) ^ 2) x (psub gi' gi) /\
   gradient (fun p => w / 2 * (curvature xm x p - k) ^ 2) xp (psub gp' gp)).
Proof. exact curvature_gradients. Qed.
Print Assumptions C62_curvature_gradient.

(** A right angle: the gradient of the first point. *)
Lemma right_angle gi gp : exists gi' gp',
  curvature_term 1 1 (1, 0) (2, 0) (2, 1) ((0, 0), gi, gp) = Ok (((PI / 2 - 1) * (PI / 2), PI / 2 - 1), gi', gp').
Proof.
  unfold curvature_term, psub. cbn [fst snd].
  assert (N1 : pnorm (2 - 1, 0 - 0) = 1).
  { unfold pnorm. cbn. replace ((2 - 1) * (2 - 1) + (0 - 0) * (0 - 0)) with 1 by ring. apply sqrt_1. }
  assert (N2 : pnorm (2 - 2, 1 - 0) = 1).
  { unfold pnorm. cbn. replace ((2 - 2) * (2 - 2) + (1 - 0) * (1 - 0)) with 1 by ring. apply sqrt_1. }
  rewrite N1, N2. destruct (Reqb_spec 1 0); [exfalso; lra|].
  rewrite normalized_dot by lra. rewrite N1, N2. unfold dot. cbn [fst snd].
  replace (((2 - 1) * (2 - 2) + (0 - 0) * (1 - 0)) / (1 * 1)) with 0 by field. rewrite clamp1_id by lra. rewrite acos_0.
  pose proof PI2_1. unfold PI2 in *. replace (PI / 2 / 1) with (PI / 2) by field. destruct (Rleb_spec (PI / 2) 1); [exfalso; lra|].
  rewrite cos_PI2. destruct (Reqb_spec (1 - 0 * 0) 0); [exfalso; lra|].
  eexists _, _. f_equal. f_equal. f_equal. unfold orthogonal_complement, normalized. rewrite ?N1, ?N2. destruct (Rltb_spec 0 1); [|exfalso; lra].
  replace (1 - 0 * 0) with 1 by ring. rewrite sqrt_1. unfold scale, psub, padd, dot. cbn [fst snd]. f_equal; field.
Qed.

Definition no_map : frames := Frames 1 0 0 (0, 0) (0, 0) (0, 0).
Definition bend_only : sparams := SParams 0 0 0 0 1 1 1 1 1 1.
Definition corner : list (point * unit) := [((0, 0), tt); ((1, 0), tt); ((2, 0), tt); ((2, 1), tt); ((2, 2), tt)].

Lemma outside_terms g : exists g', local_terms bend_only no_map (fun _ => UB) (fun _ => UB) (2, 0) g (0, 0) (1, 0) (2, 0) (2, 1) (2, 2) = Ok g'.
Proof.
  unfold local_terms, inside_position, world_to_cell, grid_to_cell. cbn [no_map fr_world_grid fr_res fst snd].
  replace ((2 - 0) / 1) with (IZR 2) by field. replace ((0 - 0) / 1) with (IZR 0) by field.
  rewrite !cast_IZR by (unfold is_int, int_min, int_max; lia). cbn. eauto.
Qed.

Lemma corner_run : exists y x rest, run bend_only no_map (fun _ => UB) (fun _ => UB) (fun _ => Ok true) 1 1 1 true [] corner (fun _ => false)
  = Ok (MaxIteration, y :: (x, tt) :: rest) /\ fst x < 1.
Proof.
  unfold run, smooth. cbn [negb corner length Z.of_nat]. cbn [Z.ltb Z.compare Pos.compare Pos.compare_cont Pos.of_succ_nat Pos.succ].
  change (select 5 (fun _ : Z => false) 5 0) with (Ok [2%Z]). cbn [bind iterate].
  change (-1 + 1 >=? 1)%Z with false. destruct (Rltb_spec 1 1); [exfalso; lra|]. cbn [length repeat accumulate_all].
  unfold accumulate. cbn -[local_terms curvature_term apply_all max_norm].
  change (Pos.to_nat 1) with 1%nat. change (Pos.to_nat 2) with 2%nat. change (Pos.to_nat 3) with 3%nat. change (Pos.to_nat 4) with 4%nat.
  unfold corner. cbn -[local_terms curvature_term apply_all max_norm].
  destruct (outside_terms (0, 0)) as (g & ->). cbn -[local_terms curvature_term apply_all max_norm].
  destruct (right_angle g (0, 0)) as (gi' & gp' & E). unfold point in *. rewrite E. cbn -[local_terms curvature_term max_norm PI].
  eexists _, _, _. split; [reflexivity|]. unfold move, psub, scale. cbn -[PI]. pose proof PI2_1. nra.
Qed.

(** ... and the neighbours are moved: the second sample of a path, next to an end point that is fixed. *)
Theorem C32_sample_next_to_end_refuted :
  exists p f no ne (valid : point * unit -> res bool) maxIterations tolerance fuel path s out,
  run p f no ne valid maxIterations tolerance fuel true [] path (fun _ => false) = Ok (s, out) /\ (0 <= code s)%Z /\
  ~ optimized (Z.of_nat (length path)) (fun _ => false) 1 /\ nth_error out 1 <> nth_error path 1.
Proof.
  destruct corner_run as (y & x & rest & E & L). eexists _, _, _, _, _, _, _, _, _, _, _. split; [exact E|]. split; [cbn; lia|].
  split; [intros [K _]; lia|]. cbn. intros K. assert (x = (1, 0)) as -> by congruence. cbn in L. lra.
Qed.
Print Assumptions C32_sample_next_to_end_refuted.

(** A zero gradient does not move a point: the hypothesis of C31 and C32. *)
Example zero_gradient p x : move p x (0, 0) = x.
Proof. destruct x. unfold move, psub, scale. cbn. f_equal; ring. Qed.

(** C63. The weight on the original path does not keep the path near it: a step with this term alone leads away, ... *)
Theorem C63_path_term_refuted :
  exists w rate orig x, 0 < w /\ 0 < rate /\ gap orig x < gap orig (psub x (scale rate (path_term w orig x))).
Proof.
  exists 1, 1, (0, 0), (1, 0). split; [lra|]. split; [lra|]. rewrite path_term_away by lra.
  assert (gap (0, 0) (1, 0) = 1) as ->; [|lra]. unfold gap, length2. cbn.
  replace ((1 - 0) * (1 - 0) + (0 - 0) * (0 - 0)) with 1 by ring. apply sqrt_1.
Qed.
Print Assumptions C63_path_term_refuted.

(** ... always by a factor above 1. *)
Theorem C63_path_term_factor_partial :
  forall w rate orig x, 0 < w -> 0 < rate ->
  gap orig (psub x (scale rate (path_term w orig x))) = (1 + rate * w) * gap orig x.
Proof. intros. now apply path_term_away. Qed.
Print Assumptions C63_path_term_factor_partial.

(** It is the gradient of the negated squared distance. *)
Theorem C63_path_term_gradient_partial :
  forall w orig x, gradient (fun p => - (w / 2) * gap orig p ^ 2) x (path_term w orig x).
Proof. exact path_term_gradient. Qed.
Print Assumptions C63_path_term_gradient_partial.
