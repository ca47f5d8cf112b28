(** The smoothing term alone makes a path bend less. *)
From Coq Require Import Reals Lra Psatz Sorted.
From Verif Require Import Base RealBase Grid_model Coords_model Straight_model Smoother_model Smoother_spec Smoother_proofs
  SmootherGrad_model SmootherGrad_spec SmootherGrad_proofs SmootherCost_spec SmootherSum_proofs SmootherDescent_spec.
From Coq Require Import ZifyBool ZifyNat ZifyN.
Local Open Scope R_scope.

(** ** Sums *)
Fixpoint sumn (f : nat -> R) (n : nat) : R := match n with O => 0 | S k => sumn f k + f k end.
Lemma sumn_shift f n : sumn f (S n) = f O + sumn (fun k => f (S k)) n.
Proof. induction n as [|n IH]; [cbn; ring|]. change (sumn f (S (S n))) with (sumn f (S n) + f (S n)). rewrite IH. cbn. ring. Qed.
Lemma sumn_ext f g n : (forall k, (k < n)%nat -> f k = g k) -> sumn f n = sumn g n.
Proof. induction n as [|n IH]; intros H; cbn; auto. rewrite IH, H by (intros; try apply H; lia). reflexivity. Qed.
Lemma sumn_plus f g n : sumn (fun k => f k + g k) n = sumn f n + sumn g n.
Proof. induction n as [|n IH]; cbn; [ring|]. rewrite IH. ring. Qed.
Lemma sumn_pos f n : (forall k, (k < n)%nat -> 0 <= f k) -> 0 <= sumn f n.
Proof. induction n as [|n IH]; intros H; cbn; [lra|]. pose proof (H n (Nat.lt_succ_diag_r n)). specialize (IH (fun k Hk => H k (Nat.lt_lt_succ_r _ _ Hk))). lra. Qed.
Lemma sumn_ge f n k : (forall i, (i < n)%nat -> 0 <= f i) -> (k < n)%nat -> f k <= sumn f n.
Proof.
  induction n as [|n IH]; intros H Hk; [lia|]. cbn. pose proof (H n (Nat.lt_succ_diag_r n)).
  assert (Hn : forall i, (i < n)%nat -> 0 <= f i) by (intros; apply H; lia). pose proof (sumn_pos f n Hn).
  destruct (Nat.eq_dec k n) as [->|N]; [lra|]. specialize (IH Hn ltac:(lia)). lra.
Qed.

(** ** One coordinate *)
Section Line.
Variables x h : nat -> R.
Variables w eta : R.
Definition d (v : nat -> R) (j : nat) : R := v j - 2 * v (S j) + v (S (S j)).

(** Summation by parts. *)
Lemma by_parts m : sumn (fun j => d x j * d h j) (S (S m)) =
  sumn (fun j => h (S (S j)) * (d x (S (S j)) - 2 * d x (S j) + d x j)) m
  + h (S (S m)) * (d x m - 2 * d x (S m)) + h (S (S (S m))) * d x (S m) + h O * d x O + h 1%nat * (d x 1%nat - 2 * d x O).
Proof.
  induction m as [|m IH]; [cbn; unfold d; ring|].
  change (sumn (fun j => d x j * d h j) (S (S (S m)))) with (sumn (fun j => d x j * d h j) (S (S m)) + d x (S (S m)) * d h (S (S m))).
  rewrite IH. cbn [sumn]. replace (d h (S (S m))) with (h (S (S m)) - 2 * h (S (S (S m))) + h (S (S (S (S m))))) by reflexivity. ring.
Qed.

Lemma second_differences m : sumn (fun j => d h j * d h j) m
  <= 16 * sumn (fun j => h j * h j) (S (S m)) - 4 * (3 * (h (S m) * h (S m)) + h m * h m).
Proof.
  induction m as [|m IH].
  - cbn. pose proof (Rle_0_sqr (h O)). unfold Rsqr in *. nra.
  - change (sumn (fun j => d h j * d h j) (S m)) with (sumn (fun j => d h j * d h j) m + d h m * d h m).
    change (sumn (fun j => h j * h j) (S (S (S m)))) with (sumn (fun j => h j * h j) (S (S m)) + h (S (S m)) * h (S (S m))).
    assert (C : d h m * d h m <= 4 * (h m * h m + 2 * (h (S m) * h (S m)) + h (S (S m)) * h (S (S m)))).
    { unfold d. set (a := h m). set (b := h (S m)). set (c := h (S (S m))).
      pose proof (Rle_0_sqr (a + b)). pose proof (Rle_0_sqr (b + c)). pose proof (Rle_0_sqr (a - c)). unfold Rsqr in *. nra. }
    lra.
Qed.

(** A step along [h], zero at the ends and the gradient of the bending elsewhere, or zero. *)
Lemma line_descent m : 0 <= eta -> h O = 0 -> h 1%nat = 0 -> h (S (S m)) = 0 -> h (S (S (S m))) = 0 ->
  (forall j, (j < m)%nat -> w * h (S (S j)) * (d x (S (S j)) - 2 * d x (S j) + d x j) = h (S (S j)) * h (S (S j))) ->
  0 <= w ->
  w * sumn (fun j => d (fun k => x k - eta * h k) j * d (fun k => x k - eta * h k) j) (S (S m))
  <= w * sumn (fun j => d x j * d x j) (S (S m)) - 2 * eta * (1 - 8 * (eta * w)) * sumn (fun j => h j * h j) (S (S (S (S m)))).
Proof.
  intros He H0 H1 H2 H3 Hj Hw. pose proof (by_parts m) as P. pose proof (second_differences (S (S m))) as Q.
  rewrite H0, H1, H2, H3 in P. rewrite !Rmult_0_l, !Rplus_0_r in P.
  assert (W : w * sumn (fun j => d x j * d h j) (S (S m)) = sumn (fun j => h j * h j) (S (S (S (S m))))).
  { rewrite P. change (sumn (fun j => h j * h j) (S (S (S (S m))))) with
      (sumn (fun j => h j * h j) (S (S m)) + h (S (S m)) * h (S (S m)) + h (S (S (S m))) * h (S (S (S m)))).
    rewrite H2, H3, !sumn_shift, H0, H1. clear P Q. induction m as [|m IH]; [cbn; ring|]. clear IH. revert Hj. generalize (S m) as n. clear.
    induction n as [|n IH]; intros Hj; [cbn; ring|]. cbn [sumn]. rewrite Rmult_plus_distr_l.
    specialize (IH (fun j L => Hj j (Nat.lt_lt_succ_r _ _ L))). pose proof (Hj n (Nat.lt_succ_diag_r n)) as E. lra. }
  assert (X : sumn (fun j => d (fun k => x k - eta * h k) j * d (fun k => x k - eta * h k) j) (S (S m)) =
    sumn (fun j => d x j * d x j) (S (S m)) - 2 * eta * sumn (fun j => d x j * d h j) (S (S m)) + eta * eta * sumn (fun j => d h j * d h j) (S (S m))).
  { generalize (S (S m)) as n. induction n as [|n IH]; [cbn; ring|]. cbn [sumn]. rewrite IH. unfold d. ring. }
  rewrite X. set (H := sumn (fun j => h j * h j) (S (S (S (S m))))) in *.
  set (S1 := sumn (fun j => d x j * d h j) (S (S m))) in *. set (S2 := sumn (fun j => d h j * d h j) (S (S m))) in *.
  assert (S2 <= 16 * H) by (rewrite H2, H3 in Q; lra).
  assert (0 <= w * (eta * eta)) by (apply Rmult_le_pos; nra).
  assert (w * (eta * eta) * S2 <= w * (eta * eta) * (16 * H)) by (apply Rmult_le_compat_l; auto).
  replace (w * (sumn (fun j => d x j * d x j) (S (S m)) - 2 * eta * S1 + eta * eta * S2))
    with (w * sumn (fun j => d x j * d x j) (S (S m)) - 2 * eta * (w * S1) + w * (eta * eta) * S2) by ring.
  rewrite W. nra.
Qed.
End Line.

(** ** Both coordinates *)
Lemma energy_sum (l : list point) : forall m, length l = S (S m) ->
  bend_energy l = sumn (fun j => bend (nth j l (0, 0)) (nth (S j) l (0, 0)) (nth (S (S j)) l (0, 0))) m.
Proof.
  induction l as [|a l IH]; intros m L; [discriminate|]. destruct l as [|b [|c l]]; cbn in L; try lia.
  - assert (m = O) as -> by lia. reflexivity.
  - destruct m as [|m]; [lia|]. rewrite sumn_shift.
    change (bend_energy (a :: b :: c :: l)) with (bend a b c + bend_energy (b :: c :: l)). f_equal. rewrite (IH m) by (cbn; lia). reflexivity.
Qed.

Lemma sumn_bend (v : nat -> point) m :
  sumn (fun j => bend (v j) (v (S j)) (v (S (S j)))) m =
  sumn (fun j => d (fun k => fst (v k)) j * d (fun k => fst (v k)) j) m + sumn (fun j => d (fun k => snd (v k)) j * d (fun k => snd (v k)) j) m.
Proof. rewrite <- sumn_plus. reflexivity. Qed.

Definition smooth_only (p : sparams) : Prop := w_path p = 0 /\ w_voronoi p = 0 /\ w_collision p = 0 /\ w_curvature p = 0.

Section Run.
Variable T : Type.
Variable p : sparams.
Variable f : frames.
Variable no ne : cell -> res cell.
Hypothesis only : smooth_only p.
Notation local := (local_terms p f no ne).
Notation curv := (curvature_term (w_curvature p) (max_curvature p)).
Notation accum_all := (accumulate_all point T point local curv).
Notation w := (w_smooth p).
Notation eta := (learning_rate p).

Lemma scale_0 v : scale 0 v = (0, 0).
Proof. unfold scale. now rewrite !Rmult_0_l. Qed.

Lemma terms_only path cur j t : terms T p f no ne path cur j t ->
  t = (smoothing_term w (sample cur (j - 2)) (sample cur (j - 1)) (sample cur j) (sample cur (j + 1)) (sample cur (j + 2)), ((0, 0), (0, 0), (0, 0))).
Proof.
  destruct only as (Wp & Wv & Wc & Wk). destruct t as [l [[a b] c]]. intros [L C]. cbn [fst snd] in *. f_equal.
  - clear C. revert L. unfold local_terms. rewrite Wp, Wv, Wc. unfold path_term. rewrite scale_0, padd_0_l.
    destruct (inside_position f _) as [[|]| | |]; try discriminate; cbn [bind].
    2:{ intros [= <-]. apply padd_0_l. }
    destruct (world_to_cell f _ true) as [c'| | |]; try discriminate; cbn [bind].
    destruct (no c') as [o| | |]; try discriminate; cbn [bind].
    rewrite (proj2 (Rltb_false 0 0)) by lra. rewrite Bool.andb_false_r. unfold collision_term, Rdiv. rewrite !Rmult_0_l, scale_0.
    destruct (Rltb _ (unsafe_radius p)); [destruct (Reqb _ 0); try discriminate|]; cbn [bind]; rewrite ?padd_0_l; now intros [= <-].
  - clear L. revert C. unfold curvature_term. rewrite Wk. destruct (Reqb _ 0); [discriminate|]. destruct (Rleb _ _); [now intros [= <- <- <-]|].
    destruct (Reqb _ 0); [discriminate|]. destruct (Reqb _ 0); [discriminate|]. rewrite !Rmult_0_l, !scale_0, !padd_0_l. now intros [= <- <- <-].
Qed.

Lemma share_only k j l : share k j (l, ((0, 0), (0, 0), (0, 0))) = if (k =? j)%Z then l else (0, 0).
Proof. unfold share. destruct (k =? j)%Z; [apply padd_0_r|]. destruct (k =? j - 1)%Z; auto. destruct (k =? j + 1)%Z; auto. Qed.

Definition h_of (cur : list (point * T)) (idx : list Z) (k : nat) : point :=
  if existsb (Z.eqb (Z.of_nat k)) idx then
    let j := Z.of_nat k in smoothing_term w (sample cur (j - 2)) (sample cur (j - 1)) (sample cur j) (sample cur (j + 1)) (sample cur (j + 2))
  else (0, 0).

Lemma gradients_only path cur idx grads : length cur = length path -> NoDup idx ->
  (forall j, In j idx -> 2 <= j <= Z.of_nat (length path) - 3)%Z ->
  accum_all path cur (repeat (0, 0) (length path)) idx = Ok grads ->
  length grads = length path /\ forall k, (k < length path)%nat -> nth_error grads k = Some (h_of cur idx k).
Proof.
  intros Hc Nd Hi E. destruct (gradients T p f no ne path cur idx grads Hc Hi E) as (ts & M & F & L & N). split; auto.
  intros k Hk. rewrite (N k Hk). f_equal. unfold h_of. clear N E L Hi.
  revert ts M F. induction Nd as [|j idx Nin Nd IH]; intros [|[j' t] ts] M F; try discriminate M; [reflexivity|].
  cbn in M. injection M as -> M. cbn [psum existsb fst snd]. pose proof (terms_only _ _ _ _ (F (j, t) (or_introl eq_refl))) as Et.
  cbn [fst snd] in Et. rewrite Et.
  rewrite share_only. destruct (Z.eqb_spec (Z.of_nat k) j) as [Ek|Ek].
  - cbn [orb]. rewrite <- Ek. rewrite psum_zero; [apply padd_0_r|]. intros [j2 t2] Hin. cbn [fst snd].
    pose proof (terms_only _ _ _ _ (F (j2, t2) (or_intror Hin))) as Et2. cbn [fst snd] in Et2. rewrite Et2. rewrite share_only. destruct (Z.eqb_spec (Z.of_nat k) j2) as [E2|]; auto.
    exfalso. apply Nin. rewrite <- M, <- Ek, E2. change j2 with (fst (j2, t2)). now apply in_map.
  - cbn [orb]. rewrite padd_0_l. apply IH; auto. intros jt Hin. apply F. now right.
Qed.

(** The squared lengths of the gradients. *)
Definition total2 (grads : list point) : R := sumn (fun k => length2 (nth k grads (0, 0))) (length grads).

Lemma step_descent path cur idx grads : length cur = length path -> NoDup idx -> 0 <= eta -> 0 <= w ->
  (forall j, In j idx -> 2 <= j <= Z.of_nat (length path) - 3)%Z ->
  accum_all path cur (repeat (0, 0) (length path)) idx = Ok grads ->
  w * bend_energy (map fst (apply_all point T point (move p) cur grads))
  <= w * bend_energy (map fst cur) - 2 * eta * (1 - 8 * (eta * w)) * total2 grads.
Proof.
  intros Hc Nd He Hw Hi E. destruct (gradients_only path cur idx grads Hc Nd Hi E) as [L N].
  destruct (Nat.lt_ge_cases (length path) 4) as [Small|Big].
  { assert (idx = []) as -> by (destruct idx as [|j r]; auto; specialize (Hi j (or_introl eq_refl)); lia).
    cbn in E. injection E as <-.
    assert (total2 (repeat (0, 0) (length path)) = 0) as ->.
    { unfold total2. rewrite repeat_length. clear. assert (forall k n, nth k (repeat (0, 0) n) (0, 0) = (0, 0)) as Z.
      { intros. destruct (Nat.lt_ge_cases k n); [apply nth_repeat|apply nth_overflow; rewrite repeat_length; lia]. }
      generalize (length path) at 1 as m. induction (length path) as [|m IH]; intros; cbn; auto. rewrite IH, Z. unfold length2. cbn. ring. }
    assert (apply_all point T point (move p) cur (repeat (0, 0) (length path)) = cur) as ->.
    { rewrite <- Hc. clear. unfold apply_all. induction cur as [|[[x y] t] cur IH]; cbn; auto. rewrite IH. f_equal. f_equal.
      unfold move, psub, scale. cbn. f_equal; ring. }
    lra. }
  destruct (length path) as [|[|[|[|m]]]] eqn:Hn; try lia.
  set (v := fun k => nth k (map fst cur) (0, 0)).
  assert (Av : forall k, (k < length cur)%nat -> sample cur (Z.of_nat k) = v k).
  { intros k Hk. unfold sample, v. rewrite Nat2Z.id. destruct (nth_error cur k) as [y|] eqn:Ek; [|apply nth_error_None in Ek; lia].
    symmetry. apply nth_error_nth. now apply map_nth_error. }
  assert (Hv : forall k, (k < length cur)%nat -> nth k (map fst (apply_all point T point (move p) cur grads)) (0, 0)
    = psub (v k) (scale eta (h_of cur idx k))).
  { intros k Hk. rewrite <- (Av k Hk). rewrite <- (apply_at p cur grads (Z.of_nat k) (h_of cur idx k)); try lia.
    2:{ rewrite Nat2Z.id. apply N. lia. }
    unfold sample. rewrite Nat2Z.id. assert (La : length (apply_all point T point (move p) cur grads) = length cur) by (apply apply_length; lia).
    destruct (nth_error (apply_all point T point (move p) cur grads) k) as [y|] eqn:Ek; [|apply nth_error_None in Ek; lia].
    apply nth_error_nth. now apply map_nth_error. }
  rewrite (energy_sum (map fst cur) (S (S m))) by (rewrite map_length; lia).
  rewrite (energy_sum (map fst (apply_all point T point (move p) cur grads)) (S (S m))) by (rewrite map_length, apply_length; lia).
  fold v. change (fun j => bend (nth j (map fst cur) (0, 0)) (nth (S j) (map fst cur) (0, 0)) (nth (S (S j)) (map fst cur) (0, 0)))
    with (fun j => bend (v j) (v (S j)) (v (S (S j)))).
  rewrite (sumn_ext _ (fun j => bend (psub (v j) (scale eta (h_of cur idx j))) (psub (v (S j)) (scale eta (h_of cur idx (S j))))
      (psub (v (S (S j))) (scale eta (h_of cur idx (S (S j))))))) by (intros k Hk; rewrite !Hv by lia; reflexivity).
  rewrite (sumn_bend (fun j => psub (v j) (scale eta (h_of cur idx j)))). rewrite sumn_bend.
  assert (H2 : total2 grads = sumn (fun k => fst (h_of cur idx k) * fst (h_of cur idx k)) (S (S (S (S m))))
    + sumn (fun k => snd (h_of cur idx k) * snd (h_of cur idx k)) (S (S (S (S m))))).
  { rewrite <- sumn_plus. unfold total2. rewrite L. apply sumn_ext. intros k Hk. rewrite (nth_error_nth _ _ _ (N k Hk)). reflexivity. }
  rewrite H2.
  assert (Out : forall k, (k < 2 \/ S m < k)%nat -> h_of cur idx k = (0, 0)).
  { intros k Hk. unfold h_of. destruct (existsb _ idx) eqn:Ex; auto. apply existsb_exists in Ex. destruct Ex as (j & Hj & Ej).
    specialize (Hi j Hj). lia. }
  assert (In_ : forall j, (j < m)%nat -> h_of cur idx (S (S j)) = (0, 0) \/
    h_of cur idx (S (S j)) = smoothing_term w (v j) (v (S j)) (v (S (S j))) (v (S (S (S j)))) (v (S (S (S (S j)))))).
  { intros j Hj. unfold h_of. destruct (existsb _ idx); auto. right. cbn zeta.
    replace (Z.of_nat (S (S j)) - 2)%Z with (Z.of_nat j) by lia. replace (Z.of_nat (S (S j)) - 1)%Z with (Z.of_nat (S j)) by lia.
    replace (Z.of_nat (S (S j)) + 1)%Z with (Z.of_nat (S (S (S j)))) by lia.
    replace (Z.of_nat (S (S j)) + 2)%Z with (Z.of_nat (S (S (S (S j))))) by lia. rewrite !Av by lia. reflexivity. }
  pose proof (line_descent (fun k => fst (v k)) (fun k => fst (h_of cur idx k)) w eta m He) as P1.
  pose proof (line_descent (fun k => snd (v k)) (fun k => snd (h_of cur idx k)) w eta m He) as P2.
  cbn beta in P1, P2. rewrite !Out in P1, P2 by lia. cbn [fst snd] in P1, P2.
  specialize (P1 eq_refl eq_refl eq_refl eq_refl). specialize (P2 eq_refl eq_refl eq_refl eq_refl).
  assert (C1 : forall j, (j < m)%nat -> w * fst (h_of cur idx (S (S j))) *
    (d (fun k => fst (v k)) (S (S j)) - 2 * d (fun k => fst (v k)) (S j) + d (fun k => fst (v k)) j) =
    fst (h_of cur idx (S (S j))) * fst (h_of cur idx (S (S j)))).
  { intros j Hj. destruct (In_ j Hj) as [-> | ->]; [cbn; ring|]. unfold smoothing_term, scale, padd, psub, d. cbn [fst snd]. ring. }
  assert (C2 : forall j, (j < m)%nat -> w * snd (h_of cur idx (S (S j))) *
    (d (fun k => snd (v k)) (S (S j)) - 2 * d (fun k => snd (v k)) (S j) + d (fun k => snd (v k)) j) =
    snd (h_of cur idx (S (S j))) * snd (h_of cur idx (S (S j)))).
  { intros j Hj. destruct (In_ j Hj) as [-> | ->]; [cbn; ring|]. unfold smoothing_term, scale, padd, psub, d. cbn [fst snd]. ring. }
  specialize (P1 C1 Hw). specialize (P2 C2 Hw).
  change (fun k => fst (psub (v k) (scale eta (h_of cur idx k)))) with (fun k => fst (v k) - eta * fst (h_of cur idx k)).
  change (fun k => snd (psub (v k) (scale eta (h_of cur idx k)))) with (fun k => snd (v k) - eta * snd (h_of cur idx k)).
  lra.
Qed.

Lemma total2_pos grads : 0 <= total2 grads.
Proof. apply sumn_pos. intros. apply length2_pos. Qed.

Lemma max_norm_total grads : 0 <= max_norm point pnorm grads /\ max_norm point pnorm grads * max_norm point pnorm grads <= total2 grads.
Proof.
  assert (G : forall l s, 0 <= s -> s * s <= total2 grads -> (forall g, In g l -> In g grads) ->
    0 <= fold_left (fun s g => Rmax s (pnorm g)) l s /\
    fold_left (fun s g => Rmax s (pnorm g)) l s * fold_left (fun s g => Rmax s (pnorm g)) l s <= total2 grads).
  { induction l as [|g l IH]; intros s Hs Ht Hin; cbn [fold_left]; [auto|]. apply IH; [..|intros; apply Hin; now right].
    - unfold Rmax. destruct (Rle_dec _ _); auto. apply pnorm_pos.
    - unfold Rmax. destruct (Rle_dec s (pnorm g)); auto. rewrite pnorm_sq.
      destruct (In_nth grads g (0, 0) (Hin g (or_introl eq_refl))) as (k & Hk & <-).
      apply (sumn_ge (fun k => length2 (nth k grads (0, 0)))); auto. intros. apply length2_pos. }
  unfold max_norm. apply G; auto; [lra|]. rewrite Rmult_0_l. apply total2_pos.
Qed.

Variable maxIterations : Z.
Variable tolerance : R.
Notation iter := (iterate point T point (0, 0) local curv (move p) pnorm maxIterations tolerance).
Notation c := (2 * eta * (1 - 8 * (eta * w))).

(** [n] of the steps had a gradient as long as the tolerance. *)
Lemma iter_descent path idx : NoDup idx -> 0 <= eta -> 0 <= w -> eta * w <= 1 / 8 -> 0 <= tolerance ->
  (forall j, In j idx -> 2 <= j <= Z.of_nat (length path) - 3)%Z ->
  forall fuel count step cur s out, length cur = length path -> iter fuel path idx count step cur = Ok (s, out) ->
  w * bend_energy (map fst out) <= w * bend_energy (map fst cur) /\
  (s = MaxIteration -> (count + 1 <= maxIterations)%Z ->
    w * bend_energy (map fst out) + IZR (maxIterations - count - 2) * (c * (tolerance * tolerance)) <= w * bend_energy (map fst cur)).
Proof.
  intros Nd He Hw Hb Ht Hi. assert (Pc : 0 <= c) by (apply Rmult_le_pos; lra).
  assert (Pt : 0 <= c * (tolerance * tolerance)) by (apply Rmult_le_pos; auto; nra).
  induction fuel as [|fuel IH]; intros count step cur s out Hc; cbn [iterate].
  - destruct (count + 1 >=? maxIterations)%Z eqn:M; [|destruct (Rltb step tolerance); [|discriminate]]; intros [= <- <-].
    + split; [lra|]. intros _ Hm. assert (maxIterations - count - 2 = -1)%Z as -> by lia. lra.
    + split; [lra|]. discriminate.
  - destruct (count + 1 >=? maxIterations)%Z eqn:M; [|destruct (Rltb step tolerance) eqn:Es].
    + intros [= <- <-]. split; [lra|]. intros _ Hm. assert (maxIterations - count - 2 = -1)%Z as -> by lia. lra.
    + intros [= <- <-]. split; [lra|]. discriminate.
    + match goal with |- bind ?a _ = _ -> _ => destruct a as [grads| | |] eqn:Eg end; try discriminate. cbn [bind]. intros E.
      destruct (gradients_only path cur idx grads Hc Nd Hi Eg) as [Lg _].
      assert (La : length (apply_all point T point (move p) cur grads) = length path) by (rewrite apply_length; lia).
      pose proof (step_descent path cur idx grads Hc Nd He Hw Hi Eg) as D. pose proof (total2_pos grads) as Tp.
      destruct (max_norm_total grads) as [Mp Mt].
      destruct (IH _ _ _ _ _ La E) as [I1 I2].
      assert (Ct : 0 <= c * total2 grads) by now apply Rmult_le_pos.
      split; [lra|]. intros -> Hm. specialize (I2 eq_refl ltac:(lia)).
      destruct (Z.eq_dec (count + 2) maxIterations) as [Last|More].
      { assert (maxIterations - count - 2 = 0)%Z as -> by lia. lra. }
      assert (Step : tolerance <= max_norm point pnorm grads).
      { destruct (Rle_lt_dec tolerance (max_norm point pnorm grads)) as [|Lt]; auto. exfalso. destruct fuel; cbn [iterate] in E;
          replace (count + 1 + 1 >=? maxIterations)%Z with false in E by lia;
          rewrite (proj2 (Rltb_true _ _) Lt) in E; discriminate E. }
      assert (c * (tolerance * tolerance) <= c * total2 grads) by (apply Rmult_le_compat_l; nra).
      replace (maxIterations - count - 2)%Z with ((maxIterations - (count + 1) - 2) + 1)%Z by lia. rewrite plus_IZR. lra.
Qed.

Lemma run_descent (valid : point * T -> res bool) fuel initialized old (path : list (point * T)) cusp s (out : list (point * T)) :
  0 <= eta -> 0 <= w -> eta * w <= 1 / 8 -> 0 <= tolerance ->
  run p f no ne valid maxIterations tolerance fuel initialized old path cusp = Ok (s, out) -> initialized = true ->
  w * bend_energy (map fst out) <= w * bend_energy (map fst path) /\
  (s = MaxIteration -> (0 <= maxIterations)%Z ->
    w * bend_energy (map fst out) + IZR (maxIterations - 1) * (c * (tolerance * tolerance)) <= w * bend_energy (map fst path)).
Proof.
  intros He Hw Hb Ht E ->. revert E. unfold run, smooth. cbn [negb].
  destruct (Z.of_nat (length path) <? 5)%Z.
  { destruct (is_path_safe point T valid path) as [b| | |]; try discriminate. cbn [bind]. destruct b; cbn [negb]; intros [= <- <-]; split; (lra || discriminate). }
  destruct (select_spec cusp (length path)) as (idx & -> & Srt & Sp). cbn [bind].
  assert (Nd : NoDup idx).
  { clear - Srt. induction Srt as [|a l S IH F]; constructor; auto. intros Hin. rewrite Forall_forall in F. specialize (F a Hin). lia. }
  assert (Hi : forall j, In j idx -> (2 <= j <= Z.of_nat (length path) - 3)%Z) by (intros j Hj; apply Sp in Hj; apply Hj).
  destruct (iter fuel path idx (-1) tolerance path) as [[s' cur]| | |] eqn:Ei; try discriminate. cbn [bind].
  destruct (is_path_safe point T valid cur) as [b| | |]; try discriminate. cbn [bind].
  destruct (iter_descent path idx Nd He Hw Hb Ht Hi fuel _ _ _ _ _ eq_refl Ei) as [I1 I2].
  destruct b; cbn [negb]; intros [= <- <-]; (split; [exact I1|]).
  - intros Hs Hm. specialize (I2 Hs ltac:(lia)). replace (maxIterations - -1 - 2)%Z with (maxIterations - 1)%Z in I2 by lia. exact I2.
  - discriminate.
Qed.
End Run.
