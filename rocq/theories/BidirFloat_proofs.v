(** The bidirectional search on doubles is the one on an ordered set of costs. *)
From Coq Require Import Reals ZArith Lra Lia.
From Flocq Require Import Core BinarySingleNaN Plus_error Relative.
From Verif Require Import Base Frontier_model Frontier_spec FrontierRel_proofs AStar_model AStar_spec AStar_proofs AStar_opt_proofs Rounded_spec
  CostFloat_model CostFloat_spec CostFloat_proofs CostFloatSearch_proofs Bidir_model Bidir_spec Bidir_proofs Bidir_opt_proofs BidirRel_proofs
  BidirFloat_model BidirFloat_spec.
Local Open Scope R_scope.

(** ** Rounding *)
Lemma pow_b k : 2 ^ k = bpow radix2 (Z.of_nat k).
Proof. rewrite bpow_powerRZ, <- pow_powerRZ. reflexivity. Qed.
Lemma pow_format k : (k <= 1000)%nat -> generic_format radix2 (SpecFloat.fexp 53 1024) (2 ^ k).
Proof.
  intros Hk. rewrite pow_b. apply generic_format_bpow. unfold SpecFloat.fexp, SpecFloat.emin. lia.
Qed.
Lemma pow2_le j k : (j <= k)%nat -> 2 ^ j <= 2 ^ k.
Proof. intros H. apply Rle_pow; [lra|exact H]. Qed.
Lemma rnd_pow k v : (k <= 1000)%nat -> Rabs v <= 2 ^ k -> Rabs (rnd v) <= 2 ^ k.
Proof. intros Hk. apply abs_round_le_generic; auto with typeclass_instances. now apply pow_format. Qed.
Lemma pow_top k : (k <= 1000)%nat -> 2 ^ k < bpow radix2 1024.
Proof. intros H. rewrite pow_b. apply bpow_lt. lia. Qed.

(** Adding an edge to a sum of at most 2^954 gives a sum of at most 2^954: larger sums absorb the edge. *)
Lemma rnd_absorb v : v <= 2 ^ 954 + 2 ^ 900 -> rnd v <= 2 ^ 954.
Proof.
  intros H. apply (@round_N_le_midp radix2 (SpecFloat.fexp 53 1024) vexp); [apply pow_format; lia|].
  rewrite (succ_eq_pos radix2 (SpecFloat.fexp 53 1024)) by (apply pow_le; lra).
  rewrite !pow_b in *. rewrite ulp_bpow. unfold SpecFloat.fexp, SpecFloat.emin.
  replace (bpow radix2 (Z.max _ _)) with (4 * bpow radix2 900).
  - pose proof (bpow_gt_0 radix2 (Z.of_nat 900)). change (Z.of_nat 900) with 900%Z in *. lra.
  - change 4 with (bpow radix2 2). rewrite <- bpow_plus. f_equal.
Qed.

Lemma add_within k x y : (k <= 1000)%nat -> d_finite x -> d_finite y -> Rabs (d_value x + d_value y) <= 2 ^ k ->
  d_finite (d_add x y) /\ d_value (d_add x y) = rnd (d_value x + d_value y) /\ Rabs (d_value (d_add x y)) <= 2 ^ k.
Proof.
  intros Hk Fx Fy H. pose proof (rnd_pow k _ Hk H) as R. pose proof (Bplus_correct 53 1024 prec53 emax1024 mode_NE x y Fx Fy) as P.
  unfold d_value in *. rewrite Rlt_bool_true in P by (eapply Rle_lt_trans; [exact R|now apply pow_top]).
  destruct P as (E & F & _). unfold d_finite, d_add. change (@Bplus 53 1024 eq_refl eq_refl) with (@Bplus 53 1024 prec53 emax1024).
  rewrite E. auto.
Qed.
Lemma sub_within k x y : (k <= 1000)%nat -> d_finite x -> d_finite y -> Rabs (d_value x - d_value y) <= 2 ^ k ->
  d_finite (d_sub x y) /\ Rabs (d_value (d_sub x y)) <= 2 ^ k.
Proof.
  intros Hk Fx Fy H. pose proof (rnd_pow k _ Hk H) as R. pose proof (Bminus_correct 53 1024 prec53 emax1024 mode_NE x y Fx Fy) as P.
  unfold d_value in *. rewrite Rlt_bool_true in P by (eapply Rle_lt_trans; [exact R|now apply pow_top]).
  destruct P as (E & F & _). unfold d_finite, d_sub. change (@Bminus 53 1024 eq_refl eq_refl) with (@Bminus 53 1024 prec53 emax1024).
  rewrite E. auto.
Qed.
Lemma two_value : d_value (d_of 2 0) = 2.
Proof.
  assert (H : B2SF (d_of 2 0) = SpecFloat.S754_finite false 4503599627370496 (-51)) by (vm_compute; reflexivity).
  unfold d_value. destruct (d_of 2 0) as [s|s| |s m e H']; try discriminate. cbn in H. injection H as -> -> ->. unfold B2R, F2R. cbn -[Rmult]. lra.
Qed.
Lemma half_within k x : (S k <= 1000)%nat -> d_finite x -> Rabs (d_value x) <= 2 ^ (S k) ->
  d_finite (d_div x (d_of 2 0)) /\ Rabs (d_value (d_div x (d_of 2 0))) <= 2 ^ k.
Proof.
  intros Hk Fx H. pose proof two_value as T. unfold d_value in *.
  assert (H' : Rabs (B2R x / 2) <= 2 ^ k).
  { unfold Rdiv. rewrite Rabs_mult, (Rabs_pos_eq (/ 2)) by lra. cbn [pow] in H. lra. }
  pose proof (rnd_pow k _ ltac:(lia) H') as R.
  pose proof (Bdiv_correct 53 1024 prec53 emax1024 mode_NE x (d_of 2 0) ltac:(rewrite T; lra)) as P. rewrite T in P.
  rewrite Rlt_bool_true in P by (eapply Rle_lt_trans; [exact R|apply pow_top; lia]).
  destruct P as (E & F & _). unfold d_finite, d_div. change (@Bdiv 53 1024 eq_refl eq_refl) with (@Bdiv 53 1024 prec53 emax1024).
  rewrite E. split; [|exact R]. rewrite F. exact Fx.
Qed.

(** ** Keys and path costs *)
Definition is_key (x : double) : Prop := d_finite x \/ x = d_inf.
Definition is_sum (x : double) : Prop := d_cost x /\ d_finite x /\ d_value x <= 2 ^ 954.
Definition keyb (x : double) : bool := match x with B754_infinity s => negb s | B754_nan => false | _ => true end.
(** The comparison of the language on keys; all else is larger. *)
Definition k_ltb (x y : double) : bool :=
  match keyb x, keyb y with true, true => d_ltb x y | true, false => true | false, _ => false end.

Lemma keyb_ok x : keyb x = true <-> is_key x.
Proof.
  unfold is_key, d_finite, d_inf. destruct x as [s|[|]| |s m e H]; cbn; split; auto; try discriminate; intros [H'|H']; discriminate.
Qed.
Lemma key_ltb x y : is_key x -> is_key y -> d_ltb x y = true <-> (d_finite x /\ (y = d_inf \/ (d_finite y /\ d_value x < d_value y))).
Proof.
  intros [Fx| ->] [Fy| ->].
  - rewrite ltb_fin by auto. unfold d_value. split.
    + intros H. split; auto. right. split; auto. destruct (Rlt_bool_spec (B2R x) (B2R y)); auto. discriminate.
    + intros [_ [->|[_ H]]]; [discriminate|]. now apply Rlt_bool_true.
  - split; auto. intros _. now apply ltb_inf_r.
  - split; [|intros [H _]; discriminate]. destruct y as [s|s| |[] m e H]; cbn; try discriminate; auto.
  - split; [discriminate|intros [H _]; discriminate].
Qed.
Lemma k_order : strict_weak_order double k_ltb.
Proof.
  unfold k_ltb. split.
  - intros x. destruct (keyb x) eqn:E; auto. apply keyb_ok in E. destruct (d_ltb x x) eqn:L; auto.
    apply key_ltb in L; auto. destruct L as [F [->|[_ L]]]; [discriminate|lra].
  - intros x y z. destruct (keyb x) eqn:Ex; [|discriminate]. destruct (keyb y) eqn:Ey; [|discriminate]. destruct (keyb z) eqn:Ez; auto.
    apply keyb_ok in Ex, Ey, Ez. intros H1 H2. apply key_ltb in H1; auto. apply key_ltb in H2; auto. apply key_ltb; auto.
    destruct H1 as [F1 H1], H2 as [F2 H2]. split; auto. destruct H2 as [H2|[F3 H2]]; auto. right. split; auto.
    destruct H1 as [->|[_ H1]]; [discriminate|lra].
  - intros x y z. destruct (keyb x) eqn:Ex; [|reflexivity]. destruct (keyb y) eqn:Ey; [|discriminate]. destruct (keyb z) eqn:Ez; [|discriminate].
    apply keyb_ok in Ex, Ey, Ez. intros H1 H2. destruct (d_ltb x z) eqn:L; auto. exfalso.
    apply key_ltb in L; auto. destruct L as [Fx L].
    assert (N1 : ~ (d_finite x /\ (y = d_inf \/ (d_finite y /\ d_value x < d_value y)))) by (rewrite <- key_ltb; auto; congruence).
    assert (N2 : ~ (d_finite y /\ (z = d_inf \/ (d_finite z /\ d_value y < d_value z)))) by (rewrite <- key_ltb; auto; congruence).
    destruct Ey as [Fy| ->]; [|tauto]. destruct L as [->|[Fz L]]; [tauto|].
    assert (~ d_value x < d_value y) by tauto. assert (~ d_value y < d_value z) by tauto. lra.
Qed.
Lemma k_same a b : is_key a -> is_key b -> k_ltb a b = d_ltb a b.
Proof. intros Ha Hb. apply keyb_ok in Ha, Hb. unfold k_ltb. now rewrite Ha, Hb. Qed.

Lemma sum_zero : is_sum d_zero.
Proof. split; [exact I|]. split; [reflexivity|]. change (d_value d_zero) with 0. apply pow_le. lra. Qed.
Lemma sum_abs x : is_sum x -> Rabs (d_value x) <= 2 ^ 954.
Proof. intros (C & F & L). rewrite Rabs_pos_eq; auto. now apply cost_pos. Qed.
Lemma key_add g k : is_sum g -> within 900 k \/ k = d_inf -> is_key (d_add g k).
Proof.
  intros (C & F & L) [[Fk Hk]| ->].
  - left. destruct (add_within 955 g k) as (H & _); auto; try lia.
    eapply Rle_trans; [apply Rabs_triang|]. rewrite (Rabs_pos_eq (d_value g)) by now apply cost_pos.
    change (2 ^ 955) with (2 * 2 ^ 954). pose proof (pow2_le 900 954 ltac:(lia)). lra.
  - right. now apply add_inf_r.
Qed.
Lemma sum_step g c : is_sum g -> d_cost c -> within 900 c -> is_sum (d_add g c).
Proof.
  intros (C & F & L) Cc [Fc Hc]. rewrite Rabs_pos_eq in Hc by now apply cost_pos.
  destruct (add_within 955 g c) as (H & E & _); auto; try lia.
  { rewrite Rabs_pos_eq by (apply Rplus_le_le_0_compat; now apply cost_pos). change (2 ^ 955) with (2 * 2 ^ 954).
    pose proof (pow2_le 900 954 ltac:(lia)). lra. }
  split; [now apply add_cost|]. split; auto. rewrite E. apply rnd_absorb. lra.
Qed.
Lemma sum_join a b : is_sum a -> is_sum b -> d_finite (d_add a b) /\ Rabs (d_value (d_add a b)) <= 2 ^ 955.
Proof.
  intros (Ca & Fa & La) (Cb & Fb & Lb). destruct (add_within 955 a b) as (H & _ & L); auto; try lia.
  rewrite Rabs_pos_eq by (apply Rplus_le_le_0_compat; now apply cost_pos). change (2 ^ 955) with (2 * 2 ^ 954). lra.
Qed.
Lemma offset_key j f r : d_finite j -> Rabs (d_value j) <= 2 ^ 955 -> within 900 f \/ f = d_inf -> within 900 r \/ r = d_inf ->
  is_key (d_add j (d_add f r)).
Proof.
  intros Fj Hj Hf Hr.
  assert (O : (d_finite (d_add f r) /\ Rabs (d_value (d_add f r)) <= 2 ^ 901) \/ d_add f r = d_inf).
  { destruct Hf as [[Ff Hf]| ->], Hr as [[Fr Hr]| ->].
    - left. destruct (add_within 901 f r) as (H & _ & L); auto; try lia.
      eapply Rle_trans; [apply Rabs_triang|]. change (2 ^ 901) with (2 * 2 ^ 900). lra.
    - right. unfold d_finite in Ff. destruct f as [s|s| |s m e H]; try discriminate; reflexivity.
    - right. unfold d_finite in Fr. destruct r as [s|s| |s m e H]; try discriminate; reflexivity.
    - right. reflexivity. }
  destruct O as [[F H]| ->].
  - left. destruct (add_within 956 j (d_add f r)) as (H' & _); auto; try lia.
    eapply Rle_trans; [apply Rabs_triang|]. change (2 ^ 956) with (2 * 2 ^ 955). pose proof (pow2_le 901 955 ltac:(lia)). lra.
  - right. unfold d_finite in Fj. destruct j as [s|s| |s m e H]; try discriminate; reflexivity.
Qed.

Lemma join_bound u m n ef er x y eps : 0 < u < 1 -> 0 <= x -> 0 <= y -> Rabs eps <= u ->
  (1 - u) ^ m * ef <= x <= (1 + u) ^ m * ef -> (1 - u) ^ n * er <= y <= (1 + u) ^ n * er ->
  (1 - u) ^ (1 + m + n) * (ef + er) <= (x + y) * (1 + eps) <= (1 + u) ^ (1 + m + n) * (ef + er).
Proof.
  intros U Px Py E Hx Hy. apply Rabs_le_inv in E.
  assert (nneg : forall k e z, 0 <= z -> z <= (1 + u) ^ k * e -> 0 <= e).
  { intros k e z Hz H. assert (P : 0 < (1 + u) ^ k) by (apply pow_lt; lra). destruct (Rle_or_lt 0 e) as [|N]; auto. nra. }
  assert (Pf : 0 <= ef) by (apply (nneg m ef x); tauto). assert (Pr : 0 <= er) by (apply (nneg n er y); tauto).
  assert (down : forall j k, (1 - u) ^ (j + k) <= (1 - u) ^ j /\ 0 <= (1 - u) ^ (j + k)).
  { intros j k. split; [|apply pow_le; lra]. rewrite pow_add. assert (0 <= (1 - u) ^ j) by (apply pow_le; lra).
    assert ((1 - u) ^ k <= 1) by (apply Rle_trans with (1 ^ k); [apply pow_incr; lra|rewrite pow1; lra]). nra. }
  assert (up : forall j k, (1 + u) ^ j <= (1 + u) ^ (j + k)) by (intros j k; apply Rle_pow; [lra|lia]).
  pose proof (down m n) as [D1 D2]. pose proof (down n m) as [D3 _]. rewrite (Nat.add_comm n m) in D3.
  pose proof (up m n) as U1. pose proof (up n m) as U2. rewrite (Nat.add_comm n m) in U2.
  change (1 + m + n)%nat with (Datatypes.S (m + n)). cbn [pow].
  assert (L : (1 - u) ^ (m + n) * (ef + er) <= x + y).
  { rewrite Rmult_plus_distr_l. apply Rplus_le_compat; [eapply Rle_trans; [|apply Hx]|eapply Rle_trans; [|apply Hy]]; now apply Rmult_le_compat_r. }
  assert (G : x + y <= (1 + u) ^ (m + n) * (ef + er)).
  { rewrite Rmult_plus_distr_l. apply Rplus_le_compat; [eapply Rle_trans; [apply Hx|]|eapply Rle_trans; [apply Hy|]]; now apply Rmult_le_compat_r. }
  split.
  - apply Rle_trans with ((x + y) * (1 - u)); [|apply Rmult_le_compat_l; lra]. rewrite Rmult_assoc, Rmult_comm. apply Rmult_le_compat_r; lra.
  - apply Rle_trans with ((x + y) * (1 + u)); [apply Rmult_le_compat_l; lra|]. rewrite Rmult_assoc, (Rmult_comm (1 + u)). apply Rmult_le_compat_r; lra.
Qed.

Section Search.
  Context {S A Pf Pr : Type}.
  Context (eqs : S -> S -> bool) (dflt : A) (hf hr : S -> double) (succf : Pf -> S -> list (S * A * double) * Pf)
    (succr : Pr -> S -> list (S * A * double) * Pr) (graph : bool) (init goal : S).
  Hypothesis Hf : moderate hf succf init.
  Hypothesis Hr : moderate hr succr goal.
  Hypothesis Hg : within 900 (hf goal) \/ hf goal = d_inf.

  Lemma offers_ok {P} (h : S -> double) (succ : P -> S -> list (S * A * double) * P) s0 : moderate h succ s0 -> forall p s, reachable succ s0 s ->
    Forall (fun t => (forall g, is_sum g -> is_sum (d_add g (snd t))) /\ reachable succ s0 (fst (fst t))) (fst (succ p s)).
  Proof.
    intros [H1 _] p s Hs. apply Forall_forall. intros [[t a] c] Hin. cbn.
    assert (T : trans succ s a c t) by (exists p; exact Hin). destruct (H1 _ _ _ _ Hs T) as [Cc Wc].
    split; [intros g Gg; now apply sum_step|]. eapply reachable_step; eauto.
  Qed.

  Notation base fuel pf pr := (bi_search eqs k_ltb d_add d_zero hf hr succf succr graph fuel init goal pf pr).
  Lemma double_bi_same fuel pf pr :
    res_rel (fun r r' => fst r = fst r' /\ b_sol (snd r) = b_sol (snd r')) (base fuel pf pr)
      (double_bi eqs hf hr succf succr graph fuel init goal pf pr).
  Proof.
    pose proof (bi_search_same eqs k_ltb d_ltb d_add d_zero d_inf hf hr succf succr graph is_sum is_key (reachable succf init) (reachable succr goal)
      (d_add (hf goal) (hr goal)) k_same (conj sum_zero (or_introl eq_refl))) as H.
    assert (H' : forall g s, is_sum g -> reachable succf init s -> is_key (d_add g (hf s))) by (intros g s Gg Hs; apply key_add; auto; now apply Hf).
    specialize (H H'). clear H'.
    assert (H' : forall g s, is_sum g -> reachable succr goal s -> is_key (d_add g (hr s))) by (intros g s Gg Hs; apply key_add; auto; now apply Hr).
    specialize (H H' (offers_ok hf succf init Hf) (offers_ok hr succr goal Hr)). clear H'.
    assert (J : forall a b, is_sum a -> is_sum b ->
      is_key (d_add a b) /\ d_ltb (d_add a b) d_inf = true /\ is_key (d_add (d_add a b) (d_add (hf goal) (hr goal)))).
    { intros a b Ga Gb. destruct (sum_join a b Ga Gb) as [F L]. split; [now left|]. split; [now apply ltb_inf_r|].
      apply offset_key; auto. apply Hr, reachable_refl. }
    specialize (H J fuel init goal pf pr (reachable_refl _ _) (reachable_refl _ _)).
    unfold bi_search, double_bi. revert H. match goal with |- res_rel _ ?x ?y -> res_rel _ ?x' ?y' => change x' with x; change y' with y; destruct x as [[o b]| | |], y as [[o' b']| | |]; cbn; auto end.
    intros (E & _ & _ & E' & _). auto.
  Qed.

  Lemma double_bi_no_ub fuel pf pr : equivalence S eqs ->
    match double_bi eqs hf hr succf succr graph fuel init goal pf pr with Ok _ => True | NoFuel => True | UB => False | Throw => False end.
  Proof.
    intros He. pose proof (double_bi_same fuel pf pr) as H.
    pose proof (bi_no_ub eqs k_ltb d_add d_zero hf hr succf succr graph He k_order init goal fuel pf pr) as N.
    destruct (base fuel pf pr) as [[o b]| | |], (double_bi eqs hf hr succf succr graph fuel init goal pf pr) as [[o' b']| | |]; cbn in H; auto.
  Qed.

  Lemma path_sum {P} (h : S -> double) (succ : P -> S -> list (S * A * double) * P) s0 : moderate h succ s0 ->
    forall l s t g, reachable succ s0 s -> is_path succ s l t -> is_sum g -> is_sum (fold_left (fun g e => d_add g (step_cost e)) l g).
  Proof.
    intros Hm. induction l as [|e l IH]; intros s t g Hs Hl Gg; cbn [fold_left]; auto. cbn [is_path] in Hl. destruct Hl as [T Hl].
    apply (IH (step_state e) t); auto.
    - eapply reachable_step; eauto.
    - destruct Hm as [H1 _]. destruct (H1 _ _ _ _ Hs T). now apply sum_step.
  Qed.
  Lemma path_value {P} (h : S -> double) (succ : P -> S -> list (S * A * double) * P) s0 l t : moderate h succ s0 -> is_path succ s0 l t ->
    is_sum (path_cost d_add d_zero l) /\
    (1 - d_unit) ^ length l * exact_cost d_value l <= d_value (path_cost d_add d_zero l) <= (1 + d_unit) ^ length l * exact_cost d_value l.
  Proof.
    intros Hm Hl. pose proof (path_sum h succ s0 Hm l s0 t d_zero (reachable_refl _ _) Hl sum_zero) as Hs. split; [exact Hs|].
    apply (double_exact (fun _ => d_zero) succ s0) with (t := t); auto; [|apply Hs]. split.
    - intros s a c u H1 H2. now apply (proj1 Hm s a c u).
    - intros s _. split; [exact I|reflexivity].
  Qed.

  Lemma double_bi_sound fuel pf pr b : equivalence S eqs -> double_bi eqs hf hr succf succr graph fuel init goal pf pr = Ok (true, b) ->
    exists lf lr s s' c, is_path succf init lf s /\ is_path succr goal lr s' /\ eqs s s' = true /\
      bi_path (b_sol b) = Ok (path_states init lf ++ rev (path_states goal lr)) /\ bi_cost d_add d_zero (b_sol b) = Some c /\
      c = d_add (path_cost d_add d_zero lf) (path_cost d_add d_zero lr) /\ d_finite c /\
      (1 - d_unit) ^ (1 + length lf + length lr) * (exact_cost d_value lf + exact_cost d_value lr) <= d_value c <=
      (1 + d_unit) ^ (1 + length lf + length lr) * (exact_cost d_value lf + exact_cost d_value lr).
  Proof.
    intros He E. pose proof (double_bi_same fuel pf pr) as H. rewrite E in H.
    destruct (base fuel pf pr) as [[o b']| | |] eqn:E'; cbn in H; try contradiction. destruct H as [-> Hsol].
    apply (bi_sound eqs k_ltb d_add d_zero dflt) in E'; auto using k_order.
    destruct E' as (lf & lr & s & s' & H1 & H2 & H3 & H4 & H5). rewrite Hsol in H4, H5.
    destruct (path_value hf succf init lf s Hf H1) as [Sf Vf]. destruct (path_value hr succr goal lr s' Hr H2) as [Sr Vr].
    exists lf, lr, s, s', (d_add (path_cost d_add d_zero lf) (path_cost d_add d_zero lr)).
    repeat (split; [assumption || reflexivity|]). destruct (sum_join _ _ Sf Sr) as [F _]. split; [exact F|].
    set (x := path_cost d_add d_zero lf) in *. set (y := path_cost d_add d_zero lr) in *.
    assert (V : d_value (d_add x y) = rnd (d_value x + d_value y)).
    { destruct Sf as (Cx & Fx & Lx), Sr as (Cy & Fy & Ly). destruct (add_within 955 x y) as (_ & V & _); auto; try lia.
      rewrite Rabs_pos_eq by (apply Rplus_le_le_0_compat; now apply cost_pos). change (2 ^ 955) with (2 * 2 ^ 954). lra. }
    destruct (rnd_error x y) as (eps & He1 & He2). change (rnd (d_value x + d_value y) = (d_value x + d_value y) * (1 + eps)) in He2. rewrite V, He2.
    apply join_bound; auto; [apply unit_range|apply cost_pos, Sf|apply cost_pos, Sr].
  Qed.

  Lemma double_bi_complete nbf nbr fuel pf pr b : decides_eq eqs -> deterministic succf nbf -> deterministic succr nbr ->
    double_bi eqs hf hr succf succr graph fuel init goal pf pr = Ok (false, b) -> can_go_back succf succr -> ~ reachable succf init goal.
  Proof.
    intros He Df Dr E. pose proof (double_bi_same fuel pf pr) as H. rewrite E in H.
    destruct (base fuel pf pr) as [[o b']| | |] eqn:E'; cbn in H; try contradiction. destruct H as [-> Hsol].
    revert E'. apply (bi_complete eqs k_ltb d_add d_zero hf hr succf succr graph nbf nbr); auto using k_order.
  Qed.
  Lemma double_bi_failure fuel pf pr b : equivalence S eqs -> double_bi eqs hf hr succf succr graph fuel init goal pf pr = Ok (false, b) ->
    bi_path (b_sol b) = Ok [] /\ bi_cost d_add d_zero (b_sol b) = None.
  Proof.
    intros He E. pose proof (double_bi_same fuel pf pr) as H. rewrite E in H.
    destruct (base fuel pf pr) as [[o b']| | |] eqn:E'; cbn in H; try contradiction. destruct H as [-> <-].
    revert E'. apply bi_failure_empty; auto using k_order.
  Qed.

  Lemma double_bi_ends K : equivalence S eqs -> graph = true -> finitely_reachable succf eqs init K -> forall fuel pf pr, (length K < fuel)%nat ->
    exists ok b, double_bi eqs hf hr succf succr graph fuel init goal pf pr = Ok (ok, b).
  Proof.
    intros He Hgr HK fuel pf pr L.
    destruct (bi_terminates eqs k_ltb d_add d_zero dflt hf hr succf succr graph He k_order init goal K Hgr HK fuel pf pr L) as (o & b & E).
    pose proof (double_bi_same fuel pf pr) as H. rewrite E in H.
    destruct (double_bi eqs hf hr succf succr graph fuel init goal pf pr) as [[o' b']| | |]; cbn in H; try contradiction. eauto.
  Qed.
End Search.

(** ** The average of two estimates *)
Lemma average_within {S} (hg hi : S -> double) (goal s : S) :
  within 898 (hi goal) -> within 898 (hi s) -> within 898 (hg s) \/ hg s = d_inf ->
  within 900 (d_average hg hi goal s) \/ d_average hg hi goal s = d_inf.
Proof.
  intros [F1 H1] [F2 H2] H. unfold d_average.
  destruct (half_within 897 (hi goal)) as [Fc Hc]; auto; try lia.
  destruct H as [[F3 H3]| ->].
  - left. destruct (sub_within 899 (hg s) (hi s)) as [Fd Hd]; auto; try lia.
    { eapply Rle_trans; [apply Rabs_triang|]. rewrite Rabs_Ropp. change (2 ^ 899) with (2 * 2 ^ 898). lra. }
    destruct (half_within 898 (d_sub (hg s) (hi s))) as [Fe He]; auto; try lia.
    destruct (add_within 900 (d_div (hi goal) (d_of 2 0)) (d_div (d_sub (hg s) (hi s)) (d_of 2 0))) as (Fr & _ & Hr); auto; try lia.
    2:{ now split. }
    eapply Rle_trans; [apply Rabs_triang|]. pose proof (pow2_le 897 898 ltac:(lia)). pose proof (pow2_le 899 900 ltac:(lia)).
    change (2 ^ 899) with (2 * 2 ^ 898) in *. lra.
  - right. assert (E : d_div (d_sub d_inf (hi s)) (d_of 2 0) = d_inf).
    { replace (d_sub d_inf (hi s)) with d_inf; [vm_compute; reflexivity|]. unfold d_finite in F2. destruct (hi s) as [z|z| |z m e Hm]; try discriminate; reflexivity. }
    rewrite E. unfold d_finite in Fc. destruct (d_div (hi goal) (d_of 2 0)) as [z|z| |z m e Hm]; try discriminate; reflexivity.
Qed.
