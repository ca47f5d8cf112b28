(** The gradient terms of the smoother are gradients. *)
From Coq Require Import Reals Lra Psatz.
From Verif Require Import Base RealBase Coords_model Straight_model Smoother_model SmootherGrad_model SmootherGrad_spec.
Local Open Scope R_scope.

(** ** Derivatives *)
Notation D := derivable_pt_lim.
Lemma D_eq f x a b : D f x a -> a = b -> D f x b.
Proof. now intros H <-. Qed.
Lemma D_ext f g x a : (forall t, f t = g t) -> D f x a -> D g x a.
Proof. intros E H e He. destruct (H e He) as [d Hd]. exists d. intros h. rewrite <- !E. apply Hd. Qed.
Lemma D_c k x : D (fun _ => k) x 0.
Proof. apply derivable_pt_lim_const. Qed.
Lemma D_plus f g x a b : D f x a -> D g x b -> D (fun t => f t + g t) x (a + b).
Proof. intros. now apply (derivable_pt_lim_plus f g). Qed.
Lemma D_minus f g x a b : D f x a -> D g x b -> D (fun t => f t - g t) x (a - b).
Proof. intros. now apply (derivable_pt_lim_minus f g). Qed.
Lemma D_mult f g x a b : D f x a -> D g x b -> D (fun t => f t * g t) x (a * g x + f x * b).
Proof. intros. now apply (derivable_pt_lim_mult f g). Qed.
Lemma D_div f g x a b : D f x a -> D g x b -> g x <> 0 -> D (fun t => f t / g t) x ((a * g x - b * f x) / (g x * g x)).
Proof. intros. pose proof (derivable_pt_lim_div f g x a b) as H2. unfold Rsqr in H2. now apply H2. Qed.
Lemma D_comp f g x a b : D f x a -> D g (f x) b -> D (fun t => g (f t)) x (b * a).
Proof. intros. now apply (derivable_pt_lim_comp f g). Qed.
Lemma D_sqrt f x a : D f x a -> 0 < f x -> D (fun t => sqrt (f t)) x (a / (2 * sqrt (f x))).
Proof.
  intros H P. eapply D_eq; [apply (D_comp f sqrt x _ _ H (derivable_pt_lim_sqrt (f x) P))|]. field.
  apply Rgt_not_eq, sqrt_lt_R0, P.
Qed.
Lemma D_acos f x a : D f x a -> -1 < f x < 1 -> D (fun t => acos (f t)) x (- a / sqrt (1 - f x * f x)).
Proof.
  intros H P. pose proof (derive_pt_acos (f x) P) as E. unfold derive_pt in E. destruct (derivable_pt_acos (f x) P) as [l Hl]. cbn in E.
  unfold derivable_pt_abs in Hl. rewrite E in Hl. eapply D_eq; [apply (D_comp f acos x _ _ H Hl)|]. unfold Rsqr, Rdiv. ring.
Qed.
Lemma D_id x : D (fun t => t) x 1.
Proof. apply derivable_pt_lim_id. Qed.
Lemma D_line k d : D (fun t => k + t * d) 0 d.
Proof.
  eapply D_eq; [apply D_plus; [apply D_c|apply D_mult; [apply derivable_pt_lim_id|apply D_c]]|]. unfold id. ring.
Qed.

(** Length of a vector that moves along a line. *)
Lemma D_norm (u v : R -> R) a b : D u 0 a -> D v 0 b -> 0 < length2 (u 0, v 0) ->
  D (fun t => sqrt (length2 (u t, v t))) 0 ((u 0 * a + v 0 * b) / sqrt (length2 (u 0, v 0))).
Proof.
  unfold length2. cbn [fst snd]. intros Hu Hv P. eapply D_eq.
  - apply (D_sqrt (fun t => u t * u t + v t * v t)); [|exact P]. exact (D_plus _ _ _ _ _ (D_mult _ _ _ _ _ Hu Hu) (D_mult _ _ _ _ _ Hv Hv)).
  - cbn beta. field. apply Rgt_not_eq, sqrt_lt_R0, P.
Qed.

(** ** Lengths *)
Lemma pnorm_length v : pnorm v = sqrt (length2 v).
Proof. reflexivity. Qed.
Lemma pnorm_pos v : 0 <= pnorm v.
Proof. apply sqrt_pos. Qed.
Lemma length2_pos v : 0 <= length2 v.
Proof. unfold length2. nra. Qed.
Lemma pnorm_sq v : pnorm v * pnorm v = length2 v.
Proof. rewrite pnorm_length. apply sqrt_sqrt, length2_pos. Qed.
Lemma pnorm_nz v : pnorm v <> 0 -> 0 < length2 v.
Proof. intros H. rewrite <- pnorm_sq. pose proof (pnorm_pos v). nra. Qed.
Lemma pnorm_0 : pnorm (0, 0) = 0.
Proof. unfold pnorm. cbn. rewrite !Rmult_0_l, Rplus_0_l. apply sqrt_0. Qed.
Lemma gap_pnorm a b : gap a b = pnorm (psub b a).
Proof. reflexivity. Qed.

Lemma D_gap o x dx dy : gap o x <> 0 ->
  D (fun t => gap o (fst x + t * dx, snd x + t * dy)) 0 ((dx * (fst x - fst o) + dy * (snd x - snd o)) / gap o x).
Proof.
  intros H. assert (P : 0 < length2 (psub x o)) by (apply pnorm_nz; exact H). unfold psub in P. unfold gap. cbn [fst snd].
  assert (Du : forall k d o', D (fun t => k + t * d - o') 0 d).
  { intros. eapply D_eq; [apply D_minus; [apply D_line|apply D_c]|ring]. }
  assert (E : length2 (fst x + 0 * dx - fst o, snd x + 0 * dy - snd o) = length2 (fst x - fst o, snd x - snd o)) by (f_equal; f_equal; ring).
  eapply D_eq; [apply (D_norm (fun t => fst x + t * dx - fst o) (fun t => snd x + t * dy - snd o) dx dy); auto; cbn beta; rewrite E; exact P|].
  cbn beta. rewrite E. f_equal. ring.
Qed.

(** ** Terms for one point *)
Lemma smoothing_gradient w xm2 xm1 x xp1 xp2 :
  gradient (fun p => w / 2 * (bend xm2 xm1 p + bend xm1 p xp1 + bend p xp1 xp2)) x (smoothing_term w xm2 xm1 x xp1 xp2).
Proof.
  intros dx dy. unfold smoothing_term, bend, length2, scale, padd, psub. cbn [fst snd]. eapply D_eq.
  - apply D_mult; [apply D_c|]. repeat (first [apply D_c|apply D_id|apply D_line|apply D_minus|apply D_plus|apply D_mult]).
  - cbn beta. field.
Qed.

Lemma collision_gradient w r o x : gap o x <> 0 ->
  gradient (fun p => w / 2 * (gap o p - r) ^ 2) x (collision_term w r (psub x o)).
Proof.
  intros H dx dy. unfold collision_term. rewrite <- gap_pnorm. unfold scale, psub. cbn [fst snd].
  pose proof (D_gap o x dx dy H) as Dg. set (g := fun t => gap o (fst x + t * dx, snd x + t * dy)) in *.
  assert (G0 : g 0 = gap o x) by (unfold g; f_equal; destruct x; cbn; f_equal; ring).
  apply (D_ext (fun t => w / 2 * ((g t - r) * (g t - r)))); [intros; unfold g; ring|]. eapply D_eq.
  - apply D_mult; [apply D_c|]. apply D_mult; (apply D_minus; [exact Dg|apply D_c]).
  - cbn beta. rewrite G0. field. exact H.
Qed.

Lemma voronoi_gradient w alpha dMax o v x : 0 < alpha -> 0 < dMax -> gap o x <> 0 -> gap v x <> 0 ->
  gradient (fun p => w * field alpha dMax (gap o p) (gap v p)) x (voronoi_term w alpha dMax (psub x o) (psub x v)).
Proof.
  intros Ha Hd Ho Hv dx dy. unfold voronoi_term. rewrite <- !gap_pnorm. unfold scale, psub, padd. cbn [fst snd].
  pose proof (D_gap o x dx dy Ho) as Do. pose proof (D_gap v x dx dy Hv) as Dv.
  assert (Po : 0 < gap o x) by (pose proof (pnorm_pos (psub x o)); rewrite <- gap_pnorm in *; lra).
  assert (Pv : 0 < gap v x) by (pose proof (pnorm_pos (psub x v)); rewrite <- gap_pnorm in *; lra).
  set (g := fun t => gap o (fst x + t * dx, snd x + t * dy)) in *.
  set (h := fun t => gap v (fst x + t * dx, snd x + t * dy)) in *.
  assert (G0 : g 0 = gap o x) by (unfold g; f_equal; destruct x; cbn; f_equal; ring).
  assert (H0 : h 0 = gap v x) by (unfold h; f_equal; destruct x; cbn; f_equal; ring).
  apply (D_ext (fun t => w * ((alpha / (alpha + g t)) * (h t / (g t + h t)) * ((g t - dMax) * (g t - dMax) / (dMax * dMax))))).
  { intros t. unfold g, h, field. simpl. rewrite !Rmult_1_r. reflexivity. }
  eapply D_eq.
  - apply D_mult; [apply D_c|]. apply D_mult; [apply D_mult|].
    + apply D_div; [apply D_c|apply D_plus; [apply D_c|exact Do]|]. rewrite G0. lra.
    + apply D_div; [exact Dv|apply D_plus; [exact Do|exact Dv]|]. rewrite G0, H0. lra.
    + apply D_div; [apply D_mult; (apply D_minus; [exact Do|apply D_c])|apply D_c|]. nra.
  - cbn beta. rewrite G0, H0. field. repeat split; lra.
Qed.

(** ** Curvature *)
Lemma cauchy_strict a b : 0 < length2 a -> 0 < length2 b -> forall c, c = dot a b / (pnorm a * pnorm b) -> c * c <= 1.
Proof.
  intros Pa Pb c ->. assert (Na : 0 < pnorm a) by (apply sqrt_lt_R0, Pa). assert (Nb : 0 < pnorm b) by (apply sqrt_lt_R0, Pb).
  replace (dot a b / (pnorm a * pnorm b) * (dot a b / (pnorm a * pnorm b)))
    with (dot a b * dot a b / (length2 a * length2 b)) by (rewrite <- !pnorm_sq; field; lra).
  apply Rmult_le_reg_r with (length2 a * length2 b); [apply Rmult_lt_0_compat; auto|]. unfold Rdiv. rewrite Rmult_assoc, Rinv_l, Rmult_1_r, Rmult_1_l.
  - pose proof (Rle_0_sqr (fst a * snd b - snd a * fst b)) as Q. unfold Rsqr in Q. unfold dot, length2. lra.
  - apply Rgt_not_eq, Rmult_lt_0_compat; auto.
Qed.

Lemma normalized_dot a b : 0 < pnorm a -> 0 < pnorm b -> dot (normalized a) (normalized b) = dot a b / (pnorm a * pnorm b).
Proof.
  intros Pa Pb. unfold normalized. rewrite !(proj2 (Rltb_true _ _)) by auto. unfold dot, scale. cbn [fst snd]. field. lra.
Qed.

Lemma clamp1_id c : c * c <= 1 -> clamp1 c = c.
Proof. intros H. assert (-1 <= c <= 1) by (split; nra). unfold clamp1, Rmin, Rmax. repeat destruct (Rle_dec _ _); lra. Qed.

(** Derivative of the curvature when both segments move along lines. *)
Lemma D_curvature (u1 u2 v1 v2 : R -> R) a1 a2 b1 b2 w k n m c :
  D u1 0 a1 -> D u2 0 a2 -> D v1 0 b1 -> D v2 0 b2 ->
  n = pnorm (u1 0, u2 0) -> m = pnorm (v1 0, v2 0) -> n <> 0 -> m <> 0 ->
  c = dot (u1 0, u2 0) (v1 0, v2 0) / (n * m) -> c * c < 1 ->
  let kappa t := acos ((u1 t * v1 t + u2 t * v2 t) / (pnorm (u1 t, u2 t) * pnorm (v1 t, v2 t))) / pnorm (u1 t, u2 t) in
  D (fun t => w / 2 * (kappa t - k) ^ 2) 0
    (w * (acos c / n - k) *
      (- (((a1 * v1 0 + u1 0 * b1 + (a2 * v2 0 + u2 0 * b2)) * (n * m)
           - ((u1 0 * a1 + u2 0 * a2) / n * m + n * ((v1 0 * b1 + v2 0 * b2) / m)) * (u1 0 * v1 0 + u2 0 * v2 0)) / (n * m * (n * m)))
         / sqrt (1 - c * c) / n
       - acos c * ((u1 0 * a1 + u2 0 * a2) / n) / (n * n))).
Proof.
  intros Du1 Du2 Dv1 Dv2 En Em Hn Hm Ec Hc kappa.
  assert (Pn : 0 < length2 (u1 0, u2 0)) by (apply pnorm_nz; congruence).
  assert (Pm : 0 < length2 (v1 0, v2 0)) by (apply pnorm_nz; congruence).
  pose proof (D_norm u1 u2 a1 a2 Du1 Du2 Pn) as Dn. pose proof (D_norm v1 v2 b1 b2 Dv1 Dv2 Pm) as Dm.
  rewrite <- pnorm_length in Dn, Dm. rewrite <- En in Dn. rewrite <- Em in Dm.
  set (nf := fun t => sqrt (length2 (u1 t, u2 t))) in *. set (mf := fun t => sqrt (length2 (v1 t, v2 t))) in *.
  assert (N0 : nf 0 = n) by (rewrite En; reflexivity). assert (M0 : mf 0 = m) by (rewrite Em; reflexivity).
  pose proof (D_plus _ _ _ _ _ (D_mult _ _ _ _ _ Du1 Dv1) (D_mult _ _ _ _ _ Du2 Dv2)) as Ds.
  pose proof (D_div _ _ _ _ _ Ds (D_mult _ _ _ _ _ Dn Dm)) as Dc. cbn beta in Dc. rewrite N0, M0 in Dc.
  specialize (Dc (Rmult_integral_contrapositive_currified _ _ Hn Hm)).
  set (cf := fun t => (u1 t * v1 t + u2 t * v2 t) / (nf t * mf t)) in *.
  assert (C0 : cf 0 = c) by (rewrite Ec; unfold cf; rewrite N0, M0; reflexivity).
  pose proof (D_acos _ _ _ Dc) as Da. cbn beta in Da. rewrite C0 in Da. specialize (Da ltac:(nra)).
  pose proof (D_div _ _ _ _ _ Da Dn) as Dk. cbn beta in Dk. rewrite N0, C0 in Dk. specialize (Dk Hn).
  apply (D_ext (fun t => w / 2 * ((acos (cf t) / nf t - k) * (acos (cf t) / nf t - k)))).
  { intros t. unfold cf, nf, mf, kappa. rewrite !pnorm_length. ring. }
  eapply D_eq.
  - apply D_mult; [apply D_c|]. apply D_mult; (apply D_minus; [exact Dk|apply D_c]).
  - cbn beta. rewrite N0, C0. field. split; [|split]; auto. apply Rgt_not_eq, sqrt_lt_R0. lra.
Qed.

Lemma curvature_gradients w k xm x xp gm gi gp gm' gi' gp' :
  curvature_term w k xm x xp (gm, gi, gp) = Ok (gm', gi', gp') ->
  (curvature xm x xp <= k -> gm' = gm /\ gi' = gi /\ gp' = gp) /\
  (k < curvature xm x xp ->
   gradient (fun p => w / 2 * (curvature p x xp - k) ^ 2) xm (psub gm' gm) /\
   gradient (fun p => w / 2 * (curvature xm p xp - k) ^ 2) x (psub gi' gi) /\
   gradient (fun p => w / 2 * (curvature xm x p - k) ^ 2) xp (psub gp' gp)).
Proof.
  unfold curvature_term. destruct (Reqb (pnorm (psub x xm)) 0) eqn:En; [discriminate|]. apply Reqb_false in En.
  set (n := pnorm (psub x xm)) in *. assert (Pn : 0 < n) by (pose proof (pnorm_pos (psub x xm)); fold n in H; lra).
  set (m := pnorm (psub xp x)) in *.
  destruct (Req_dec m 0) as [M0|Hm].
  { (* the next point coincides: the curvature is that of a right angle *)
    assert (X : psub xp x = (0, 0)).
    { pose proof (pnorm_sq (psub xp x)) as Q. fold m in Q. rewrite M0 in Q. unfold length2 in Q. destruct (psub xp x) as [p q]. cbn in Q.
      assert (p = 0) by nra. assert (q = 0) by nra. congruence. }
    assert (C : dot (normalized (psub x xm)) (normalized (psub xp x)) = 0).
    { rewrite X. unfold normalized at 2. rewrite pnorm_0. rewrite (proj2 (Rltb_false _ _)) by lra. unfold dot. cbn. ring. }
    rewrite C. rewrite clamp1_id by lra. assert (curvature xm x xp = acos 0 / n) as K.
    { unfold curvature, turn. rewrite !gap_pnorm. fold n m. rewrite M0, Rmult_0_r. unfold psub in X. assert (fst xp - fst x = 0 /\ snd xp - snd x = 0) as [-> ->] by (split; congruence).
      rewrite !Rmult_0_r, Rplus_0_l. unfold Rdiv at 2. rewrite Rmult_0_l. reflexivity. }
    rewrite K. destruct (Rleb (acos 0 / n) k) eqn:Ek.
    - intros [= -> -> ->]. apply Rleb_true in Ek. split; auto. lra.
    - rewrite (proj2 (Reqb_true _ _)) by exact M0. discriminate. }
  assert (Pm : 0 < m) by (pose proof (pnorm_pos (psub xp x)); fold m in H; lra).
  rewrite normalized_dot by assumption. fold n m. set (c := dot (psub x xm) (psub xp x) / (n * m)).
  assert (Cc : c * c <= 1).
  { apply (cauchy_strict (psub x xm) (psub xp x)); [apply pnorm_nz; exact En|apply pnorm_nz; exact Hm|reflexivity]. }
  rewrite clamp1_id by exact Cc. assert (K : curvature xm x xp = acos c / n) by reflexivity. rewrite K.
  destruct (Rleb (acos c / n) k) eqn:Ek.
  { intros [= -> -> ->]. apply Rleb_true in Ek. split; auto. lra. }
  apply Rleb_false in Ek. rewrite (proj2 (Reqb_false _ _)) by exact Hm.
  rewrite cos_acos by nra. destruct (Reqb (1 - c * c) 0) eqn:E1; [discriminate|]. apply Reqb_false in E1.
  assert (Cs : c * c < 1) by lra. assert (Ps : 0 < sqrt (1 - c * c)) by (apply sqrt_lt_R0; lra).
  intros [= <- <- <-]. split; [lra|]. intros _. unfold normalized. fold n. rewrite (proj2 (Rltb_true _ _)) by exact Pn.
  assert (Dl : forall k' d o', D (fun t => k' + t * d - o') 0 d).
  { intros. eapply D_eq; [apply D_minus; [apply D_line|apply D_c]|ring]. }
  assert (Dr : forall k' d o', D (fun t => o' - (k' + t * d)) 0 (- d)).
  { intros. eapply D_eq; [apply D_minus; [apply D_c|apply D_line]|ring]. }
  destruct xm as [xm1 xm2], x as [x1 x2], xp as [xp1 xp2]. unfold psub, padd, scale, orthogonal_complement, dot in *. cbn [fst snd] in *.
  fold n m. set (S := sqrt (1 - c * c)) in *. set (phi := acos c) in *.
  split; [|split]; intros dx dy; unfold curvature, turn; cbn [fst snd]; (eapply D_eq;
    [match goal with |- D (fun t => w / 2 * (acos ((@?u1 t * @?v1 t + @?u2 t * @?v2 t) / _) / _ - k) ^ 2) 0 _ =>
       eapply (D_curvature u1 u2 v1 v2 _ _ _ _ w k n m c) end|]).
  all: cbn beta.
  all: try apply Dl; try apply Dr; try apply D_c; auto.
  all: try (replace (x1 - (xm1 + 0 * dx)) with (x1 - xm1) by ring).
  all: try (replace (x2 - (xm2 + 0 * dy)) with (x2 - xm2) by ring).
  all: try (replace (x1 + 0 * dx - xm1) with (x1 - xm1) by ring).
  all: try (replace (x2 + 0 * dy - xm2) with (x2 - xm2) by ring).
  all: try (replace (xp1 + 0 * dx - x1) with (xp1 - x1) by ring).
  all: try (replace (xp2 + 0 * dy - x2) with (xp2 - x2) by ring).
  all: try (replace (xp1 - (x1 + 0 * dx)) with (xp1 - x1) by ring).
  all: try (replace (xp2 - (x2 + 0 * dy)) with (xp2 - x2) by ring).
  all: try reflexivity.
  all: fold S phi; unfold psub, scale; cbn [fst snd]; field; repeat split; lra.
Qed.

(** ** The term for the original path *)
Lemma path_term_away w orig x rate : 0 < w -> 0 < rate ->
  gap orig (psub x (scale rate (path_term w orig x))) = (1 + rate * w) * gap orig x.
Proof.
  intros Hw Hr. unfold gap. rewrite <- (sqrt_Rsqr (1 + rate * w)) at 1 by nra. rewrite <- sqrt_mult; [|apply Rle_0_sqr|apply length2_pos].
  f_equal. unfold Rsqr, length2, path_term, psub, scale. cbn [fst snd]. ring.
Qed.

Lemma path_term_gradient w orig x : gradient (fun p => - (w / 2) * gap orig p ^ 2) x (path_term w orig x).
Proof.
  intros dx dy. unfold path_term, scale, psub. cbn [fst snd].
  apply (D_ext (fun t => - (w / 2) * ((fst x + t * dx - fst orig) * (fst x + t * dx - fst orig) + (snd x + t * dy - snd orig) * (snd x + t * dy - snd orig)))).
  { intros t. unfold gap. rewrite <- Rsqr_pow2, Rsqr_sqrt by apply length2_pos. reflexivity. }
  eapply D_eq.
  - apply D_mult; [apply D_c|]. repeat (first [apply D_c|apply D_id|apply D_line|apply D_minus|apply D_plus|apply D_mult]).
  - cbn beta. field.
Qed.
