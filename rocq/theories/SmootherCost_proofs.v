(** The gradients of the smoother are those of the total cost. *)
From Coq Require Import Reals Lra Psatz Sorted Permutation Relation_Operators Operators_Properties.
From Verif Require Import Base RealBase Grid_model Coords_model Straight_model Smoother_model Smoother_spec Smoother_proofs
  SmootherGrad_model SmootherGrad_spec SmootherGrad_proofs SmootherCost_spec SmootherSum_proofs.
From Coq Require Import ZifyBool ZifyNat ZifyN.
Local Open Scope R_scope.

(** ** Derivatives depend on what is near *)
Definition nearby (P : R -> Prop) : Prop := exists d, 0 < d /\ forall t, Rabs t < d -> P t.
Lemma nearby_and P Q : nearby P -> nearby Q -> nearby (fun t => P t /\ Q t).
Proof.
  intros (a & Ha & A) (b & Hb & B). exists (Rmin a b). split; [now apply Rmin_glb_lt|]. intros t Ht.
  pose proof (Rmin_l a b). pose proof (Rmin_r a b). split; [apply A|apply B]; lra.
Qed.
Lemma nearby_impl (P Q : R -> Prop) : (forall t, P t -> Q t) -> nearby P -> nearby Q.
Proof. intros H (a & Ha & A). exists a. split; auto. Qed.

Lemma D_local f g a : nearby (fun t => f t = g t) -> D f 0 a -> D g 0 a.
Proof.
  intros (d & Hd & H) F e He. destruct (F e He) as [d1 H1].
  assert (P : 0 < Rmin d d1) by (apply Rmin_glb_lt; [assumption|apply cond_pos]).
  exists (mkposreal _ P). intros h Hh Hb. cbn [pos] in Hb. pose proof (Rmin_l d d1). pose proof (Rmin_r d d1).
  rewrite <- (H 0), <- (H (0 + h)).
  - apply H1; auto. lra.
  - rewrite Rplus_0_l. lra.
  - rewrite Rabs_R0. lra.
Qed.

Notation cont f := (continuity_pt f 0).
Lemma D_cont f a : D f 0 a -> cont f.
Proof. intros H. apply derivable_continuous_pt. exists a. exact H. Qed.
Lemma cont_lt f k : cont f -> f 0 < k -> nearby (fun t => f t < k).
Proof.
  intros C H. destruct (C (k - f 0)) as (d & Hd & B); [lra|]. exists d. split; auto. intros t Ht.
  destruct (Req_dec t 0) as [->|N]; auto. specialize (B t). cbn in B. unfold R_dist, D_x, no_cond in B.
  assert (Rabs (f t - f 0) < k - f 0) as K.
  { apply B. split; [split; auto|]. now rewrite Rminus_0_r. }
  apply Rabs_def2 in K. lra.
Qed.
Lemma cont_gt f k : cont f -> k < f 0 -> nearby (fun t => k < f t).
Proof.
  intros C H. destruct (cont_lt (fun t => - f t) (- k)) as (d & Hd & B).
  - apply (continuity_pt_opp f 0 C).
  - lra.
  - exists d. split; auto. intros t Ht. specialize (B t Ht). lra.
Qed.

(** The turn is continuous, even where it is not differentiable. *)
Lemma acos_less c phi : -1 <= c <= 1 -> 0 <= phi <= PI -> cos phi < c -> acos c < phi.
Proof.
  intros Hc Hp H. destruct (Rlt_le_dec (acos c) phi) as [|G]; auto. exfalso. pose proof (acos_bound c).
  pose proof (cos_decr_1 phi (acos c)) as K. rewrite cos_acos in K by auto. lra.
Qed.
Lemma acos_more c phi : -1 <= c <= 1 -> 0 <= phi <= PI -> c < cos phi -> phi < acos c.
Proof.
  intros Hc Hp H. destruct (Rlt_le_dec phi (acos c)) as [|G]; auto. exfalso. pose proof (acos_bound c).
  pose proof (cos_decr_1 (acos c) phi) as K. rewrite cos_acos in K by auto. lra.
Qed.
Lemma acos_lt f k : cont f -> (nearby (fun t => -1 <= f t <= 1)) -> acos (f 0) < k -> nearby (fun t => acos (f t) < k).
Proof.
  intros C B H. pose proof (acos_bound (f 0)) as A. destruct (Rle_lt_dec k PI) as [L|G].
  - assert (-1 <= f 0 <= 1) as F0 by (destruct B as (e & He & B); apply B; rewrite Rabs_R0; lra).
    assert (K : cos k < f 0). { rewrite <- (cos_acos (f 0)) by auto. apply cos_decreasing_1; lra. }
    apply (nearby_impl (fun t => -1 <= f t <= 1 /\ cos k < f t)).
    + intros t [T1 T2]. apply acos_less; auto. lra.
    + apply nearby_and; auto. now apply cont_gt.
  - exists 1. split; [lra|]. intros t _. pose proof (acos_bound (f t)). lra.
Qed.
Lemma acos_gt f k : cont f -> (nearby (fun t => -1 <= f t <= 1)) -> k < acos (f 0) -> nearby (fun t => k < acos (f t)).
Proof.
  intros C B H. pose proof (acos_bound (f 0)) as A. destruct (Rle_lt_dec 0 k) as [L|G].
  - assert (-1 <= f 0 <= 1) as F0 by (destruct B as (e & He & B); apply B; rewrite Rabs_R0; lra).
    assert (K : f 0 < cos k). { rewrite <- (cos_acos (f 0)) by auto. apply cos_decreasing_1; lra. }
    apply (nearby_impl (fun t => -1 <= f t <= 1 /\ f t < cos k)).
    + intros t [T1 T2]. apply acos_more; auto. lra.
    + apply nearby_and; auto. now apply cont_lt.
  - exists 1. split; [lra|]. intros t _. pose proof (acos_bound (f t)). lra.
Qed.

(** A path of three samples one of which moves along a line. *)
Definition along (x : point) (dx dy t : R) : point := (fst x + t * dx, snd x + t * dy).
Lemma along_0 x dx dy : along x dx dy 0 = x.
Proof. destruct x. unfold along. cbn. f_equal; ring. Qed.

Definition smooth_move (m : R -> point) : Prop := (exists a, D (fun t => fst (m t)) 0 a) /\ (exists b, D (fun t => snd (m t)) 0 b).
Lemma still x : smooth_move (fun _ => x).
Proof. split; exists 0; apply D_c. Qed.
Lemma moving x dx dy : smooth_move (along x dx dy).
Proof. split; eexists; apply D_line. Qed.

Lemma gap_cont a b : smooth_move a -> smooth_move b -> gap (a 0) (b 0) <> 0 -> cont (fun t => gap (a t) (b t)).
Proof.
  intros [[a1 A1] [a2 A2]] [[b1 B1] [b2 B2]] H. apply D_cont with
    (((fst (b 0) - fst (a 0)) * (b1 - a1) + (snd (b 0) - snd (a 0)) * (b2 - a2)) / gap (a 0) (b 0)).
  unfold gap. apply (D_norm (fun t => fst (b t) - fst (a t)) (fun t => snd (b t) - snd (a t))).
  - now apply D_minus.
  - now apply D_minus.
  - apply (pnorm_nz (psub (b 0) (a 0))). exact H.
Qed.

Definition cosine (a b c : point) : R :=
  ((fst b - fst a) * (fst c - fst b) + (snd b - snd a) * (snd c - snd b)) / (gap a b * gap b c).
Lemma cosine_range a b c : gap a b <> 0 -> gap b c <> 0 -> -1 <= cosine a b c <= 1.
Proof.
  intros H1 H2. pose proof (cauchy_strict (psub b a) (psub c b) (pnorm_nz _ H1) (pnorm_nz _ H2) (cosine a b c) eq_refl). split; nra.
Qed.
Lemma cosine_cont a b c : smooth_move a -> smooth_move b -> smooth_move c -> gap (a 0) (b 0) <> 0 -> gap (b 0) (c 0) <> 0 ->
  cont (fun t => cosine (a t) (b t) (c t)).
Proof.
  intros Ma Mb Mc H1 H2. pose proof (gap_cont a b Ma Mb H1) as G1. pose proof (gap_cont b c Mb Mc H2) as G2.
  destruct Ma as [[a1 A1] [a2 A2]], Mb as [[b1 B1] [b2 B2]], Mc as [[c1 C1] [c2 C2]].
  apply (continuity_pt_div (fun t => (fst (b t) - fst (a t)) * (fst (c t) - fst (b t)) + (snd (b t) - snd (a t)) * (snd (c t) - snd (b t)))
    (fun t => gap (a t) (b t) * gap (b t) (c t))).
  - eapply D_cont. apply D_plus; apply D_mult; apply D_minus; eassumption.
  - apply (continuity_pt_mult (fun t => gap (a t) (b t)) (fun t => gap (b t) (c t))); assumption.
  - apply Rmult_integral_contrapositive_currified; assumption.
Qed.

Lemma gap_pos a b : 0 <= gap a b.
Proof. apply sqrt_pos. Qed.

Section Three.
Variables a b c : R -> point.
Hypothesis Ma : smooth_move a.
Hypothesis Mb : smooth_move b.
Hypothesis Mc : smooth_move c.
Hypothesis H1 : gap (a 0) (b 0) <> 0.
Hypothesis H2 : gap (b 0) (c 0) <> 0.

Lemma near_range : nearby (fun t => 0 < gap (a t) (b t) /\ -1 <= cosine (a t) (b t) (c t) <= 1).
Proof.
  pose proof (gap_pos (a 0) (b 0)). pose proof (gap_pos (b 0) (c 0)).
  apply (nearby_impl (fun t => 0 < gap (a t) (b t) /\ 0 < gap (b t) (c t))).
  - intros t [T1 T2]. split; auto. apply cosine_range; lra.
  - apply nearby_and; apply cont_gt; try lra; now apply gap_cont.
Qed.

Lemma curvature_lt k : curvature (a 0) (b 0) (c 0) < k -> nearby (fun t => curvature (a t) (b t) (c t) < k).
Proof.
  intros H. pose proof (gap_pos (a 0) (b 0)) as Gp. unfold curvature, turn in H. fold (cosine (a 0) (b 0) (c 0)) in H.
  set (phi := acos (cosine (a 0) (b 0) (c 0))) in *. set (n := gap (a 0) (b 0)) in *.
  assert (L : phi < k * n).
  { apply Rmult_lt_reg_r with (/ n); [apply Rinv_0_lt_compat; lra|]. rewrite Rmult_assoc, Rinv_r by lra. unfold Rdiv in H. lra. }
  set (mid := (phi + k * n) / 2).
  assert (N1 : nearby (fun t => acos (cosine (a t) (b t) (c t)) < mid)).
  { apply (acos_lt (fun t => cosine (a t) (b t) (c t))); [now apply cosine_cont| |fold phi; unfold mid; lra].
    eapply nearby_impl; [|exact near_range]. now intros t [_ T]. }
  assert (N2 : nearby (fun t => mid < k * gap (a t) (b t))).
  { apply (cont_gt (fun t => k * gap (a t) (b t))); [|fold n; unfold mid; lra].
    apply (continuity_pt_scal (fun t => gap (a t) (b t)) k 0). now apply gap_cont. }
  eapply nearby_impl; [|exact (nearby_and _ _ near_range (nearby_and _ _ N1 N2))]. cbn beta. intros t ([T0 _] & T1 & T2).
  unfold curvature, turn. fold (cosine (a t) (b t) (c t)). apply Rmult_lt_reg_r with (gap (a t) (b t)); auto.
  unfold Rdiv. rewrite Rmult_assoc, Rinv_l by lra. lra.
Qed.

Lemma curvature_gt k : k < curvature (a 0) (b 0) (c 0) -> nearby (fun t => k < curvature (a t) (b t) (c t)).
Proof.
  intros H. pose proof (gap_pos (a 0) (b 0)) as Gp. unfold curvature, turn in H. fold (cosine (a 0) (b 0) (c 0)) in H.
  set (phi := acos (cosine (a 0) (b 0) (c 0))) in *. set (n := gap (a 0) (b 0)) in *.
  assert (L : k * n < phi).
  { apply Rmult_lt_reg_r with (/ n); [apply Rinv_0_lt_compat; lra|]. rewrite Rmult_assoc, Rinv_r by lra. unfold Rdiv in H. lra. }
  set (mid := (phi + k * n) / 2).
  assert (N1 : nearby (fun t => mid < acos (cosine (a t) (b t) (c t)))).
  { apply (acos_gt (fun t => cosine (a t) (b t) (c t))); [now apply cosine_cont| |fold phi; unfold mid; lra].
    eapply nearby_impl; [|exact near_range]. now intros t [_ T]. }
  assert (N2 : nearby (fun t => k * gap (a t) (b t) < mid)).
  { apply (cont_lt (fun t => k * gap (a t) (b t))); [|fold n; unfold mid; lra].
    apply (continuity_pt_scal (fun t => gap (a t) (b t)) k 0). now apply gap_cont. }
  eapply nearby_impl; [|exact (nearby_and _ _ near_range (nearby_and _ _ N1 N2))]. cbn beta. intros t ([T0 _] & T1 & T2).
  unfold curvature, turn. fold (cosine (a t) (b t) (c t)). apply Rmult_lt_reg_r with (gap (a t) (b t)); auto.
  unfold Rdiv. rewrite Rmult_assoc, Rinv_l by lra. lra.
Qed.
End Three.

Lemma excess_low u : u <= 0 -> excess u = 0.
Proof. intros H. unfold excess. rewrite Rmax_right by lra. ring. Qed.
Lemma excess_high u : 0 <= u -> excess u = u ^ 2.
Proof. intros H. unfold excess. now rewrite Rmax_left by lra. Qed.
Lemma shortfall_low u : u <= 0 -> shortfall u = u ^ 2.
Proof. intros H. unfold shortfall. now rewrite Rmin_left by lra. Qed.
Lemma shortfall_high u : 0 <= u -> shortfall u = 0.
Proof. intros H. unfold shortfall. rewrite Rmin_right by lra. ring. Qed.

Lemma D_shortfall u : D shortfall u (2 * Rmin u 0).
Proof.
  intros e He. exists (mkposreal e He). intros h Hh Hb. cbn [pos] in Hb. unfold shortfall.
  assert (B : Rabs (Rmin (u + h) 0 ^ 2 - Rmin u 0 ^ 2 - 2 * Rmin u 0 * h) <= h * h).
  { unfold Rmin. apply Rabs_le. destruct (Rle_dec (u + h) 0), (Rle_dec u 0); split; nra. }
  replace ((Rmin (u + h) 0 ^ 2 - Rmin u 0 ^ 2) / h - 2 * Rmin u 0) with ((Rmin (u + h) 0 ^ 2 - Rmin u 0 ^ 2 - 2 * Rmin u 0 * h) / h) by (field; auto).
  unfold Rdiv. rewrite Rabs_mult, Rabs_inv. assert (P : 0 < Rabs h) by now apply Rabs_pos_lt.
  apply Rle_lt_trans with (h * h * / Rabs h); [apply Rmult_le_compat_r; auto; left; now apply Rinv_0_lt_compat|].
  replace (h * h) with (Rabs h * Rabs h) by (rewrite <- Rabs_mult; apply Rabs_pos_eq; nra). rewrite Rmult_assoc, Rinv_r by lra. lra.
Qed.

(** ** Gradients *)
Lemma grad_eq c x g g' : gradient c x g -> g = g' -> gradient c x g'.
Proof. now intros H <-. Qed.
Lemma grad_ext c c' x g : (forall q, c q = c' q) -> gradient c x g -> gradient c' x g.
Proof. intros E H dx dy. eapply D_ext; [|apply H]. intros t. apply E. Qed.
Lemma grad_const k x : gradient (fun _ => k) x (0, 0).
Proof. intros dx dy. eapply D_eq; [apply D_c|]. cbn. ring. Qed.
Lemma grad_plus c c' x g g' : gradient c x g -> gradient c' x g' -> gradient (fun q => c q + c' q) x (padd g g').
Proof. intros H H' dx dy. eapply D_eq; [apply D_plus; [apply H|apply H']|]. unfold padd. cbn [fst snd]. ring. Qed.
Lemma grad_scale k c x g : gradient c x g -> gradient (fun q => k * c q) x (scale k g).
Proof. intros H dx dy. eapply D_eq; [apply D_mult; [apply D_c|apply H]|]. unfold scale. cbn [fst snd]. ring. Qed.
Lemma grad_total l (F : Z -> point -> R) (G : Z -> point) x : (forall j, In j l -> gradient (F j) x (G j)) ->
  gradient (fun q => total_over l (fun j => F j q)) x (psum G l).
Proof.
  induction l as [|j l IH]; intros H; cbn [total_over fold_right psum]; [apply grad_const|].
  apply (grad_plus (F j)); [apply H; now left|]. apply IH. intros. apply H. now right.
Qed.
Lemma grad_local c c' x g : (forall dx dy, nearby (fun t => c (along x dx dy t) = c' (along x dx dy t))) -> gradient c x g -> gradient c' x g.
Proof. intros E H dx dy. eapply D_local; [|apply H]. apply E. Qed.

(** Obstacles. *)
Lemma D_along_gap o x dx dy : gap o x <> 0 -> exists a, D (fun t => gap o (along x dx dy t)) 0 a.
Proof. intros H. eexists. apply (D_gap o x dx dy H). Qed.

Lemma cont_gap o x dx dy : gap o x <> 0 -> cont (fun t => gap o (along x dx dy t)).
Proof. intros H. destruct (D_along_gap o x dx dy H) as [a A]. now apply D_cont with a. Qed.

Lemma collision_near w r o x : gap o x < r -> gap o x <> 0 ->
  gradient (fun q => w / 2 * shortfall (gap o q - r)) x (collision_term w r (psub x o)).
Proof.
  intros H N. eapply grad_local; [|apply collision_gradient; exact N]. intros dx dy.
  destruct (cont_lt (fun t => gap o (along x dx dy t)) r) as (d & Hd & B); [now apply cont_gap|cbn; now rewrite along_0|].
  exists d. split; auto. intros t Ht. specialize (B t Ht). cbn in B. rewrite shortfall_low by lra. reflexivity.
Qed.
Lemma collision_far w r o x : r <= gap o x -> gap o x <> 0 -> gradient (fun q => w / 2 * shortfall (gap o q - r)) x (0, 0).
Proof.
  intros H N dx dy. destruct (D_along_gap o x dx dy N) as [a A]. eapply D_eq.
  - apply D_mult; [apply D_c|]. apply (D_comp (fun t => gap o (along x dx dy t) - r) shortfall); [apply D_minus; [exact A|apply D_c]|apply D_shortfall].
  - cbn beta. rewrite along_0, Rmin_right by lra. cbn. ring.
Qed.

Lemma voronoi_near w o v x : gap o x < 30 -> gap o x <> 0 -> gap v x <> 0 ->
  gradient (fun q => w * (20 / (20 + gap o q) * (gap v q / (gap o q + gap v q)) * (shortfall (gap o q - 30) / 30 ^ 2))) x
    (voronoi_term w 20 30 (psub x o) (psub x v)).
Proof.
  intros H N N'. eapply grad_local; [|apply (voronoi_gradient w 20 30 o v x); auto; lra]. intros dx dy.
  destruct (cont_lt (fun t => gap o (along x dx dy t)) 30) as (d & Hd & B); [now apply cont_gap|cbn; now rewrite along_0|].
  exists d. split; auto. intros t Ht. specialize (B t Ht). cbn in B. rewrite shortfall_low by lra. reflexivity.
Qed.
Lemma voronoi_far w o v x : 30 <= gap o x -> gap v x <> 0 ->
  gradient (fun q => w * (20 / (20 + gap o q) * (gap v q / (gap o q + gap v q)) * (shortfall (gap o q - 30) / 30 ^ 2))) x (0, 0).
Proof.
  intros H N' dx dy. assert (N : gap o x <> 0) by lra. pose proof (gap_pos v x) as Gv.
  destruct (D_along_gap o x dx dy N) as [a A]. destruct (D_along_gap v x dx dy N') as [b B].
  set (g := fun t => gap o (along x dx dy t)) in *. set (h := fun t => gap v (along x dx dy t)) in *.
  assert (G0 : g 0 = gap o x) by (unfold g; now rewrite along_0). assert (H0 : h 0 = gap v x) by (unfold h; now rewrite along_0).
  change (D (fun t => w * (20 / (20 + g t) * (h t / (g t + h t)) * (shortfall (g t - 30) / 30 ^ 2))) 0 (fst (0, 0) * dx + snd (0, 0) * dy)).
  eapply D_eq.
  - apply D_mult; [apply D_c|]. apply D_mult; [apply D_mult|].
    + apply D_div; [apply D_c|apply D_plus; [apply D_c|exact A]|]. rewrite G0. lra.
    + apply D_div; [exact B|apply D_plus; [exact A|exact B]|]. rewrite G0, H0. lra.
    + apply D_div; [|apply D_c|lra].
      apply (D_comp (fun t => g t - 30) shortfall); [apply D_minus; [exact A|apply D_c]|apply D_shortfall].
  - cbn beta. rewrite G0, H0. rewrite shortfall_high, Rmin_right by lra. cbn [fst snd]. unfold Rdiv. ring.
Qed.
Lemma voronoi_none o v x : gradient (fun q => 0 * (20 / (20 + gap o q) * (gap v q / (gap o q + gap v q)) * (shortfall (gap o q - 30) / 30 ^ 2))) x (0, 0).
Proof. eapply grad_ext; [|apply (grad_const 0)]. intros q. cbn. ring. Qed.

(** Curvature. *)
Lemma curvature_cases w k xm x xp a b c : curvature_term w k xm x xp ((0, 0), (0, 0), (0, 0)) = Ok (a, b, c) ->
  gap xm x <> 0 -> gap x xp <> 0 -> curvature xm x xp <> k ->
  gradient (fun q => w / 2 * excess (curvature q x xp - k)) xm a /\
  gradient (fun q => w / 2 * excess (curvature xm q xp - k)) x b /\
  gradient (fun q => w / 2 * excess (curvature xm x q - k)) xp c.
Proof.
  intros E H1 H2 Hk. destruct (curvature_gradients _ _ _ _ _ _ _ _ _ _ _ E) as [Low High].
  assert (P0 : forall g, psub g (0, 0) = g) by (intros [g1 g2]; unfold psub; cbn; f_equal; ring).
  destruct (Rlt_le_dec k (curvature xm x xp)) as [G|L].
  - destruct (High G) as (A & B & C). rewrite P0 in A, B, C. split; [|split].
    + apply (grad_local (fun q => w / 2 * (curvature q x xp - k) ^ 2)); auto. intros dx dy.
      eapply nearby_impl; [|apply (curvature_gt (along xm dx dy) (fun _ => x) (fun _ => xp)); try apply still; try apply moving; rewrite ?along_0; eauto].
      cbn beta. intros t Ht. rewrite excess_high by lra. reflexivity.
    + apply (grad_local (fun q => w / 2 * (curvature xm q xp - k) ^ 2)); auto. intros dx dy.
      eapply nearby_impl; [|apply (curvature_gt (fun _ => xm) (along x dx dy) (fun _ => xp)); try apply still; try apply moving; rewrite ?along_0; eauto].
      cbn beta. intros t Ht. rewrite excess_high by lra. reflexivity.
    + apply (grad_local (fun q => w / 2 * (curvature xm x q - k) ^ 2)); auto. intros dx dy.
      eapply nearby_impl; [|apply (curvature_gt (fun _ => xm) (fun _ => x) (along xp dx dy)); try apply still; try apply moving; rewrite ?along_0; eauto].
      cbn beta. intros t Ht. rewrite excess_high by lra. reflexivity.
  - destruct (Low L) as (-> & -> & ->). assert (S : curvature xm x xp < k) by lra.
    split; [|split]; apply (grad_local (fun _ => 0)); try apply grad_const; intros dx dy.
    + eapply nearby_impl; [|apply (curvature_lt (along xm dx dy) (fun _ => x) (fun _ => xp)); try apply still; try apply moving; rewrite ?along_0; eauto].
      cbn beta. intros t Ht. rewrite excess_low by lra. ring.
    + eapply nearby_impl; [|apply (curvature_lt (fun _ => xm) (along x dx dy) (fun _ => xp)); try apply still; try apply moving; rewrite ?along_0; eauto].
      cbn beta. intros t Ht. rewrite excess_low by lra. ring.
    + eapply nearby_impl; [|apply (curvature_lt (fun _ => xm) (fun _ => x) (along xp dx dy)); try apply still; try apply moving; rewrite ?along_0; eauto].
      cbn beta. intros t Ht. rewrite excess_low by lra. ring.
Qed.

(** ** Sums of gradients *)
Lemma total_perm l l' f : Permutation l l' -> total_over l f = total_over l' f.
Proof. unfold total_over. induction 1; cbn; try lra. Qed.
Lemma psum_padd {A} (f g : A -> point) l : psum (fun a => padd (f a) (g a)) l = padd (psum f l) (psum g l).
Proof.
  induction l as [|a l IH]; cbn; [now rewrite padd_0_l|]. rewrite IH. unfold padd. cbn [fst snd]. f_equal; ring.
Qed.
Lemma psum_pick {A} (key : A -> Z) (v : A -> point) (l : list A) a : NoDup (map key l) -> In a l ->
  psum (fun b => if (key a =? key b)%Z then v b else (0, 0)) l = v a.
Proof.
  induction l as [|b l IH]; intros Nd Hin; [destruct Hin|]. cbn in Nd. inversion_clear Nd as [|? ? Nin Nd']. cbn [psum].
  destruct Hin as [-> |Hin].
  - rewrite Z.eqb_refl. rewrite psum_zero; [apply padd_0_r|]. intros b Hb. destruct (Z.eqb_spec (key a) (key b)) as [E|]; auto.
    exfalso. apply Nin. rewrite E. now apply in_map.
  - destruct (Z.eqb_spec (key a) (key b)) as [E|]; [exfalso; apply Nin; rewrite <- E; now apply in_map|]. rewrite padd_0_l. now apply IH.
Qed.
Lemma psum_none {A} (key : A -> Z) (v : A -> point) (l : list A) i : ~ In i (map key l) ->
  psum (fun b => if (i =? key b)%Z then v b else (0, 0)) l = (0, 0).
Proof.
  intros H. apply psum_zero. intros b Hb. destruct (Z.eqb_spec i (key b)) as [->|]; auto. exfalso. apply H. now apply in_map.
Qed.
Lemma grad_terms (ts : list (Z * term)) (F : Z -> point -> R) (G : Z * term -> point) x :
  (forall jt, In jt ts -> gradient (F (fst jt)) x (G jt)) ->
  gradient (fun q => total_over (map fst ts) (fun j => F j q)) x (psum G ts).
Proof.
  induction ts as [|jt ts IH]; intros H; cbn [map total_over fold_right psum]; [apply grad_const|].
  apply (grad_plus (F (fst jt))); [apply H; now left|]. apply IH. intros. apply H. now right.
Qed.

Lemma put_same X i q : put X i q i = q.
Proof. unfold put. now rewrite Z.eqb_refl. Qed.
Lemma put_other X i q k : k <> i -> put X i q k = X k.
Proof. intros H. unfold put. destruct (Z.eqb_spec k i); [contradiction|reflexivity]. Qed.

Lemma from_in a n k : In k (from a n) <-> (a <= k < a + Z.of_nat n)%Z.
Proof.
  unfold from. rewrite in_map_iff. split.
  - intros (j & <- & Hj). apply in_seq in Hj. lia.
  - intros H. exists (Z.to_nat (k - a)). split; [lia|]. apply in_seq. lia.
Qed.
Lemma from_nodup a n : NoDup (from a n).
Proof. unfold from. apply FinFun.Injective_map_NoDup; [intros u v; lia|apply seq_NoDup]. Qed.
Lemma moved_optimized num cusp k : moved num cusp k = true <-> optimized num cusp k.
Proof.
  unfold moved, optimized. rewrite !Bool.andb_true_iff, forallb_forall. split.
  - intros ((A & B) & C). split; [lia|]. intros j Hj. specialize (C (j - k)%Z). replace (k + (j - k))%Z with j in C by lia.
    destruct (cusp j); auto. exfalso. cbn in C. assert (false = true) by (apply C; lia). discriminate.
  - intros (A & B). split; [split; lia|]. intros j Hj. rewrite B; auto. cbn in Hj. lia.
Qed.
Lemma moved_samples_in num cusp k : In k (moved_samples num cusp) <-> moved num cusp k = true.
Proof.
  unfold moved_samples. rewrite filter_In, from_in. split; [tauto|]. intros H. split; auto. apply moved_optimized in H. destruct H as [H _]. lia.
Qed.

(** The bends of a path as a function of one sample. *)
Lemma bends_gradient w X i n : (2 <= i <= Z.of_nat n - 3)%Z ->
  gradient (fun q => w / 2 * total_over (from 1 (Z.to_nat (Z.of_nat n - 2))) (fun j => bend (put X i q (j - 1)%Z) (put X i q j) (put X i q (j + 1)%Z)))
    (X i) (smoothing_term w (X (i - 2)%Z) (X (i - 1)%Z) (X i) (X (i + 1)%Z) (X (i + 2)%Z)).
Proof.
  intros Hi. set (l := from 1 (Z.to_nat (Z.of_nat n - 2))).
  assert (Nd : NoDup (map (fun j : Z => j) l)) by (rewrite map_id; apply from_nodup).
  assert (I1 : In (i - 1)%Z l) by (apply from_in; lia). assert (I2 : In i l) by (apply from_in; lia). assert (I3 : In (i + 1)%Z l) by (apply from_in; lia).
  set (g1 := fun j : Z => padd (X (j - 1)%Z) (padd (scale (-2) (X j)) (X i))).
  set (g2 := fun j : Z => scale (-2) (padd (X (j - 1)%Z) (padd (scale (-2) (X i)) (X (j + 1)%Z)))).
  set (g3 := fun j : Z => padd (X i) (padd (scale (-2) (X j)) (X (j + 1)%Z))).
  set (G := fun j : Z => scale 2 (padd (if (i - 1 =? j)%Z then g1 j else (0, 0)) (padd (if (i =? j)%Z then g2 j else (0, 0)) (if (i + 1 =? j)%Z then g3 j else (0, 0))))).
  eapply grad_eq.
  - apply grad_scale. apply (grad_total l (fun j q => bend (put X i q (j - 1)%Z) (put X i q j) (put X i q (j + 1)%Z)) G). intros j Hj. unfold G.
    destruct (Z.eqb_spec (i - 1) j) as [E1|N1]; [|destruct (Z.eqb_spec i j) as [E2|N2]; [|destruct (Z.eqb_spec (i + 1) j) as [E3|N3]]].
    + destruct (Z.eqb_spec i j); [lia|]. destruct (Z.eqb_spec (i + 1) j); [lia|]. rewrite !padd_0_r.
      apply (grad_ext (fun q => bend (X (j - 1)%Z) (X j) q)).
      { intros q. replace (j + 1)%Z with i by lia. rewrite put_same, !put_other by lia. reflexivity. }
      intros dx dy. unfold bend, length2, g1, scale, padd. cbn [fst snd]. eapply D_eq.
      * repeat (first [apply D_c|apply D_id|apply D_line|apply D_minus|apply D_plus|apply D_mult]).
      * cbn beta. ring.
    + destruct (Z.eqb_spec (i + 1) j); [lia|]. rewrite padd_0_l, padd_0_r. subst j.
      apply (grad_ext (fun q => bend (X (i - 1)%Z) q (X (i + 1)%Z))).
      { intros q. rewrite put_other, put_same, put_other by lia. reflexivity. }
      intros dx dy. unfold bend, length2, g2, scale, padd. cbn [fst snd]. eapply D_eq.
      * repeat (first [apply D_c|apply D_id|apply D_line|apply D_minus|apply D_plus|apply D_mult]).
      * cbn beta. ring.
    + rewrite !padd_0_l.
      apply (grad_ext (fun q => bend q (X j) (X (j + 1)%Z))).
      { intros q. replace (j - 1)%Z with i by lia. rewrite put_same, !put_other by lia. reflexivity. }
      intros dx dy. unfold bend, length2, g3, scale, padd. cbn [fst snd]. eapply D_eq.
      * repeat (first [apply D_c|apply D_id|apply D_line|apply D_minus|apply D_plus|apply D_mult]).
      * cbn beta. ring.
    + rewrite !padd_0_l. apply (grad_ext (fun _ => bend (X (j - 1)%Z) (X j) (X (j + 1)%Z))).
      { intros q. rewrite !put_other by lia. reflexivity. }
      eapply grad_eq; [apply grad_const|]. unfold scale. cbn. f_equal; ring.
  - unfold G. assert (S : forall k f l, psum (fun j : Z => scale k (f j)) l = scale k (psum f l)).
    { intros k f l'. induction l' as [|b l' IH]; cbn; [unfold scale; cbn; f_equal; ring|]. rewrite IH. unfold scale, padd. cbn. f_equal; ring. }
    rewrite S, !psum_padd.
    rewrite (psum_pick (fun j : Z => j) g1 l (i - 1)%Z Nd I1), (psum_pick (fun j : Z => j) g2 l i Nd I2), (psum_pick (fun j : Z => j) g3 l (i + 1)%Z Nd I3).
    unfold g1, g2, g3, smoothing_term, scale, padd, psub. cbn [fst snd].
    replace (i - 1 - 1)%Z with (i - 2)%Z by lia. replace (i + 1 + 1)%Z with (i + 2)%Z by lia. f_equal; field.
Qed.

(** ** One iteration *)
Section Iteration.
Variable T : Type.
Variable p : sparams.
Variable f : frames.
Variable no ne : cell -> res cell.
Hypothesis alpha20 : vor_alpha p = 20.
Hypothesis dmax30 : vor_dmax p = 30.
Hypothesis voronoi_pos : 0 <= w_voronoi p.
Variable path : list (point * T).
Variable cusp : Z -> bool.
Notation num := (Z.of_nat (length path)).
Notation place near := (place_cost (w_path p) (w_voronoi p) (w_collision p) (unsafe_radius p) (sample path) near).
Notation costs near := (cost (w_path p) (w_smooth p) (w_voronoi p) (w_collision p) (w_curvature p) (max_curvature p) (unsafe_radius p) num cusp (sample path) near).
Notation curving := (curvature_cost (w_curvature p) (max_curvature p) num cusp).
Notation smoothing j X := (smoothing_term (w_smooth p) (X (j - 2)%Z) (X (j - 1)%Z) (X j%Z) (X (j + 1)%Z) (X (j + 2)%Z)).

Lemma place_gradient cur near j t : terms T p f no ne path cur j t -> next_to f no ne (sample cur j) (near j) ->
  match near j with Some (o, v) => gap o (sample cur j) <> 0 /\ gap v (sample cur j) <> 0 | None => True end ->
  exists g, fst t = padd g (smoothing j (sample cur)) /\ gradient (place near j) (sample cur j) g.
Proof.
  intros [L _] N R. revert L. unfold local_terms. rewrite padd_0_l. set (x := sample cur j) in *.
  pose proof (path_term_gradient (w_path p) (sample path j) x) as Gp. unfold place_cost. unfold next_to in N. destruct (near j) as [[o v]|].
  2:{ rewrite N. cbn [bind]. intros [= <-]. eexists. split; [reflexivity|].
      eapply grad_eq; [apply grad_plus; [exact Gp|apply grad_const]|apply padd_0_r]. }
  destruct N as (c & co & cv & -> & -> & Eo & Ev & Ho & Hv). cbn [bind]. rewrite Eo. cbn [bind]. rewrite <- Ho.
  destruct R as [Ro Rv]. rewrite <- !gap_pnorm. unfold obstacle_cost. rewrite alpha20, dmax30.
  assert (Eg : exists gc, gradient (fun q => w_collision p / 2 * shortfall (gap o q - unsafe_radius p)) x gc /\
    (if Rltb (gap o x) (unsafe_radius p)
     then if Reqb (gap o x) 0 then UB else Ok (padd (path_term (w_path p) (sample path j) x) (collision_term (w_collision p) (unsafe_radius p) (psub x o)))
     else Ok (path_term (w_path p) (sample path j) x)) = Ok (padd (path_term (w_path p) (sample path j) x) gc)).
  { destruct (Rltb_spec (gap o x) (unsafe_radius p)) as [Lt|Ge].
    - rewrite (proj2 (Reqb_false _ _)) by exact Ro. eexists. split; [|reflexivity]. now apply collision_near.
    - exists (0, 0). split; [now apply collision_far|now rewrite padd_0_r]. }
  destruct Eg as (gc & Gc & ->). cbn [bind].
  set (V := fun q => w_voronoi p * (20 / (20 + gap o q) * (gap v q / (gap o q + gap v q)) * (shortfall (gap o q - 30) / 30 ^ 2))).
  assert (Eg : exists gv, gradient V x gv /\
    (if Rltb (gap o x) 30 && Rltb 0 (w_voronoi p) then
       do v0 <- ne c;
       (if Rltb 0 (pnorm (psub x (cell_to_world f v0))) then
          if Reqb (gap o x) 0 then UB
          else Ok (padd (padd (path_term (w_path p) (sample path j) x) gc) (voronoi_term (w_voronoi p) 20 30 (psub x o) (psub x (cell_to_world f v0))))
        else Ok (padd (path_term (w_path p) (sample path j) x) gc))
     else Ok (padd (path_term (w_path p) (sample path j) x) gc)) = Ok (padd (padd (path_term (w_path p) (sample path j) x) gc) gv)).
  { rewrite Ev. cbn [bind]. rewrite <- Hv. rewrite <- gap_pnorm. destruct (Rltb_spec (gap o x) 30) as [Lt|Ge]; cbn [andb].
    - destruct (Rltb_spec 0 (w_voronoi p)) as [Wp|W0].
      + pose proof (gap_pos v x). rewrite (proj2 (Rltb_true _ _)) by lra. rewrite (proj2 (Reqb_false _ _)) by exact Ro.
        eexists. split; [|reflexivity]. now apply voronoi_near.
      + exists (0, 0). split; [|now rewrite padd_0_r]. unfold V. replace (w_voronoi p) with 0 by lra. apply voronoi_none.
    - exists (0, 0). split; [|now rewrite padd_0_r]. now apply voronoi_far. }
  destruct Eg as (gv & Gv & ->). cbn [bind]. intros [= <-]. eexists. split; [reflexivity|].
  rewrite padd_assoc. apply grad_plus; [exact Gp|]. apply (grad_plus (fun q => w_collision p / 2 * shortfall (gap o q - unsafe_radius p)) V); assumption.
Qed.

Lemma share_parts i j t : share i j t = padd (if (i =? j)%Z then fst t else (0, 0)) (share i j ((0, 0), snd t)).
Proof.
  destruct t as [l [[a b] c]]. cbn [share fst snd]. destruct (i =? j)%Z; [now rewrite padd_0_l|]. now rewrite padd_0_l.
Qed.

Lemma curvature_share cur i j t : terms T p f no ne path cur j t ->
  gap (sample cur (j - 1)%Z) (sample cur j) <> 0 -> gap (sample cur j) (sample cur (j + 1)%Z) <> 0 ->
  curvature (sample cur (j - 1)%Z) (sample cur j) (sample cur (j + 1)%Z) <> max_curvature p ->
  gradient (fun q => w_curvature p / 2 * excess (curvature (put (sample cur) i q (j - 1)%Z) (put (sample cur) i q j) (put (sample cur) i q (j + 1)%Z) - max_curvature p))
    (sample cur i) (share i j ((0, 0), snd t)).
Proof.
  intros [_ C] H1 H2 H3. destruct t as [l [[a b] c]]. cbn [snd] in *. cbn [share].
  destruct (curvature_cases _ _ _ _ _ _ _ _ C H1 H2 H3) as (A & B & E).
  destruct (Z.eqb_spec i j) as [->|N1]; [|destruct (Z.eqb_spec i (j - 1)) as [->|N2]; [|destruct (Z.eqb_spec i (j + 1)) as [->|N3]]].
  - rewrite padd_0_l. eapply grad_ext; [|exact B]. intros q. cbn beta. rewrite put_other, put_same, put_other by lia. reflexivity.
  - eapply grad_ext; [|exact A]. intros q. cbn beta. rewrite put_same, !put_other by lia. reflexivity.
  - eapply grad_ext; [|exact E]. intros q. cbn beta. rewrite put_same, !put_other by lia. reflexivity.
  - eapply grad_ext; [|apply grad_const]. intros q. cbn beta. rewrite !put_other by lia. reflexivity.
Qed.

Lemma iteration_gradient cur near idx grads : length cur = length path ->
  select (length path) cusp num 0 = Ok idx ->
  accumulate_all point T point (local_terms p f no ne) (curvature_term (w_curvature p) (max_curvature p)) path cur (repeat (0, 0) (length path)) idx = Ok grads ->
  (forall j, moved num cusp j = true -> next_to f no ne (sample cur j) (near j)) ->
  differentiable (max_curvature p) num cusp near (sample cur) ->
  length grads = length path /\
  forall i, (0 <= i < num)%Z -> exists g, nth_error grads (Z.to_nat i) = Some g /\
    if moved num cusp i then gradient (fun q => costs near (put (sample cur) i q)) (sample cur i) g
    else gradient (fun q => curving (put (sample cur) i q)) (sample cur i) g.
Proof.
  intros Hc Hs Ha Hn Hd. destruct (select_spec cusp (length path)) as (idx' & Es & Srt & Sp). rewrite Hs in Es. injection Es as <-.
  assert (Nd : NoDup idx).
  { clear - Srt. induction Srt as [|a l S IH F]; constructor; auto. intros Hin. rewrite Forall_forall in F. specialize (F a Hin). lia. }
  assert (Hi : forall j, In j idx -> (2 <= j <= num - 3)%Z) by (intros j Hj; apply Sp in Hj; apply Hj).
  assert (Mv : forall j, In j idx <-> moved num cusp j = true) by (intros j; rewrite Sp; symmetry; apply moved_optimized).
  assert (Pm : Permutation (moved_samples num cusp) idx).
  { apply NoDup_Permutation; auto; [apply NoDup_filter, from_nodup|]. intros j. rewrite Mv. apply moved_samples_in. }
  destruct (gradients T p f no ne path cur idx grads Hc Hi Ha) as (ts & M & Ft & Lg & N). split; auto. intros i Hr.
  specialize (N (Z.to_nat i) ltac:(lia)). rewrite Z2Nat.id in N by lia. eexists. split; [exact N|].
  set (X := sample cur) in *.
  assert (Nd' : NoDup (map fst ts)) by now rewrite M.
  rewrite (psum_ext _ (fun jt => padd (if (i =? fst jt)%Z then fst (snd jt) else (0, 0)) (share i (fst jt) ((0, 0), snd (snd jt))))) by (intros; apply share_parts).
  rewrite psum_padd.
  assert (Curv : gradient (fun q => curving (put X i q)) (X i) (psum (fun jt : Z * term => share i (fst jt) ((0, 0), snd (snd jt))) ts)).
  { unfold curvature_cost. apply (grad_ext (fun q => total_over (map fst ts) (fun j => w_curvature p / 2 *
      excess (curvature (put X i q (j - 1)%Z) (put X i q j) (put X i q (j + 1)%Z) - max_curvature p)))).
    { intros q. rewrite M. symmetry. now apply total_perm. }
    apply (grad_terms ts (fun j q => w_curvature p / 2 * excess (curvature (put X i q (j - 1)%Z) (put X i q j) (put X i q (j + 1)%Z) - max_curvature p))).
    intros [j t] Hin. cbn [fst snd]. assert (Hj : moved num cusp j = true) by (apply Mv; rewrite <- M; change j with (fst (j, t)); now apply in_map).
    destruct (Hd j Hj) as (D1 & D2 & D3 & _). apply curvature_share; auto. exact (Ft (j, t) Hin). }
  destruct (moved num cusp i) eqn:Hm.
  - assert (Hin : In i (map fst ts)) by (rewrite M; now apply Mv). apply in_map_iff in Hin. destruct Hin as ([j t] & E & Hin). cbn in E. subst j.
    pose proof (psum_pick fst (fun jt : Z * term => fst (snd jt)) ts (i, t) Nd' Hin) as K. cbn [fst snd] in K.
    match goal with |- gradient _ _ (padd ?a _) => replace a with (fst t) by (symmetry; exact K) end. clear K.
    destruct (place_gradient cur near i t (Ft (i, t) Hin) (Hn i Hm)) as (g & -> & Gg).
    { destruct (Hd i Hm) as (_ & _ & _ & H). exact H. }
    fold X. fold X in Gg.
    assert (Place : gradient (fun q => total_over (moved_samples num cusp) (fun j => place near j (put X i q j))) (X i) g).
    { eapply grad_eq; [apply (grad_total (moved_samples num cusp) (fun j q => place near j (put X i q j)) (fun j => if (i =? j)%Z then g else (0, 0)))|].
      - intros j Hj. destruct (Z.eqb_spec i j) as [<-|Nj].
        + eapply grad_ext; [|exact Gg]. intros q. cbn beta. now rewrite put_same.
        + eapply grad_ext; [|apply grad_const]. intros q. cbn beta. rewrite put_other by lia. reflexivity.
      - apply (psum_pick (fun j : Z => j) (fun _ => g)); [rewrite map_id; apply NoDup_filter, from_nodup|]. now apply moved_samples_in. }
    apply moved_optimized in Hm. destruct Hm as [Hm _].
    pose proof (bends_gradient (w_smooth p) X i (length path) Hm) as Bend.
    unfold cost. eapply grad_eq; [apply grad_plus; [apply grad_plus; [exact Place|exact Curv]|exact Bend]|].
    match goal with |- padd (padd _ ?c') _ = padd _ ?c => change c' with c; generalize c end. intros h. unfold padd. cbn [fst snd]. f_equal; ring.
  - pose proof (psum_none fst (fun jt : Z * term => fst (snd jt)) ts i ltac:(rewrite M, Mv; congruence)) as K.
    match goal with |- gradient _ _ (padd ?a _) => replace a with (0, 0) by (symmetry; exact K) end. rewrite padd_0_l. exact Curv.
Qed.
(** ** All iterations *)
Variable maxIterations : Z.
Variable tolerance : R.
Notation iter := (iterate point T point (0, 0) (local_terms p f no ne) (curvature_term (w_curvature p) (max_curvature p)) (move p) pnorm maxIterations tolerance).
Notation one := (descent_step (w_path p) (w_smooth p) (w_voronoi p) (w_collision p) (w_curvature p) (max_curvature p) (unsafe_radius p) (learning_rate p)
  f no ne num cusp (sample path)).
Notation many := (clos_refl_trans_1n _ (fun X Y => exists G, one X G Y)).

Lemma max_norm_all (grads : list point) k : max_norm point pnorm grads < k -> forall g, In g grads -> pnorm g < k.
Proof.
  unfold max_norm. assert (H : forall l s, s <= fold_left (fun s g => Rmax s (pnorm g)) l s /\
    forall g, In g l -> pnorm g <= fold_left (fun s g => Rmax s (pnorm g)) l s).
  { induction l as [|a l IH]; intros s; cbn [fold_left]; [split; [lra|now intros g []]|].
    destruct (IH (Rmax s (pnorm a))) as [I1 I2]. pose proof (Rmax_l s (pnorm a)). pose proof (Rmax_r s (pnorm a)).
    split; [lra|]. intros g [<-|Hg]; [lra|auto]. }
  intros L g Hg. destruct (H grads 0) as [_ K]. specialize (K g Hg). unfold point in *. lra.
Qed.

Lemma iter_descends idx : select (length path) cusp num 0 = Ok idx ->
  forall fuel count step cur s out, length cur = length path -> iter fuel path idx count step cur = Ok (s, out) ->
  many (sample cur) (sample out) /\
  (s = StepTolerance -> tolerance <= step -> exists X G, many (sample cur) X /\ one X G (sample out) /\ forall i, (0 <= i < num)%Z -> pnorm (G i) < tolerance).
Proof.
  intros Hs. destruct (select_spec cusp (length path)) as (idx' & Es & Srt & Sp). rewrite Hs in Es. injection Es as <-.
  assert (Hi : forall j, In j idx -> (2 <= j <= num - 3)%Z) by (intros j Hj; apply Sp in Hj; apply Hj).
  induction fuel as [|fuel IH]; intros count step cur s out Hc; cbn [iterate].
  - destruct (count + 1 >=? maxIterations)%Z; [|destruct (Rltb_spec step tolerance); [|discriminate]]; intros [= <- <-];
      (split; [constructor|]); [discriminate|lra].
  - destruct (count + 1 >=? maxIterations)%Z; [|destruct (Rltb_spec step tolerance)].
    + intros [= <- <-]. split; [constructor|discriminate].
    + intros [= <- <-]. split; [constructor|lra].
    + match goal with |- bind ?a _ = _ -> _ => destruct a as [grads| | |] eqn:Eg end; try discriminate. cbn [bind]. intros E.
      destruct (gradients T p f no ne path cur idx grads Hc Hi Eg) as (_ & _ & _ & Lg & _).
      assert (La : length (apply_all point T point (move p) cur grads) = length path) by (rewrite apply_length; lia).
      set (G := fun i : Z => nth (Z.to_nat i) grads (0, 0)).
      assert (Get : forall i, (0 <= i < num)%Z -> nth_error grads (Z.to_nat i) = Some (G i)) by (intros i Hr; apply nth_error_nth'; lia).
      assert (One : one (sample cur) G (sample (apply_all point T point (move p) cur grads))).
      { split.
        - intros i Hr. rewrite (apply_at p cur grads i (G i)); [reflexivity|lia|now apply Get|lia].
        - intros near Hn Hd i Hr. destruct (iteration_gradient cur near idx grads Hc Hs Eg Hn Hd) as [_ K].
          destruct (K i Hr) as (g & Eg' & Hg). rewrite (Get i Hr) in Eg'. injection Eg' as <-. exact Hg. }
      destruct (IH _ _ _ _ _ La E) as [I1 I2]. split.
      * econstructor; [|exact I1]. now exists G.
      * intros -> _. destruct (Rlt_le_dec (max_norm point pnorm grads) tolerance) as [Lt|Ge].
        -- (* the next iteration stops *)
           assert (out = apply_all point T point (move p) cur grads) as ->.
           { destruct fuel; cbn [iterate] in E; (destruct (count + 1 + 1 >=? maxIterations)%Z; [discriminate|]);
               rewrite (proj2 (Rltb_true _ _) Lt) in E; congruence. }
           exists (sample cur), G. split; [constructor|]. split; [exact One|]. intros i Hr.
           apply (max_norm_all grads tolerance Lt). apply nth_error_In with (Z.to_nat i). now apply Get.
        -- destruct (I2 eq_refl Ge) as (X & G' & M & O & B). exists X, G'. split; auto. econstructor; [|exact M]. now exists G.
Qed.

Lemma run_descends (valid : point * T -> res bool) fuel old s (out : list (point * T)) :
  run p f no ne valid maxIterations tolerance fuel true old path cusp = Ok (s, out) ->
  clos_refl_trans _ (fun X Y => exists G, one X G Y) (sample path) (sample out) /\
  (s = StepTolerance -> exists X G, clos_refl_trans _ (fun X Y => exists G, one X G Y) (sample path) X /\ one X G (sample out) /\
    forall i, (0 <= i < num)%Z -> pnorm (G i) < tolerance).
Proof.
  unfold run, smooth. cbn [negb]. destruct (num <? 5)%Z.
  { destruct (is_path_safe point T valid path) as [b| | |]; try discriminate. cbn [bind]. destruct b; cbn [negb]; intros [= <- <-];
      (split; [apply rt_refl|discriminate]). }
  destruct (select_spec cusp (length path)) as (idx & Es & _ & _). rewrite Es. cbn [bind].
  match goal with |- bind ?a _ = _ -> _ => destruct a as [[s' cur]| | |] eqn:Ei end; try discriminate. cbn [bind].
  destruct (is_path_safe point T valid cur) as [b| | |]; try discriminate. cbn [bind].
  destruct (iter_descends idx Es fuel _ _ _ _ _ eq_refl Ei) as [I1 I2].
  destruct b; cbn [negb]; intros [= <- <-].
  - split; [now apply clos_rt1n_rt|]. intros Hs. destruct (I2 Hs (Rle_refl _)) as (X & G & M & O & B). exists X, G. split; [now apply clos_rt1n_rt|]. auto.
  - split; [now apply clos_rt1n_rt|discriminate].
Qed.
End Iteration.
