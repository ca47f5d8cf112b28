(** Distances between cells in double precision. *)
From Coq Require Import Reals ZArith Lra Lia Rgeom.
From Flocq Require Import Core BinarySingleNaN Relative.
From Verif Require Import Base Frontier_model AStar_model AStar_spec Rounded_spec Grid_model Grid_spec AStarN2_model AStarN2_spec AStarN2_proofs
  CostFloat_model CostFloat_spec CostFloat_proofs CostFloatN2_proofs CostEuclid_model CostEuclid_spec.
Local Open Scope R_scope.

Lemma euclid_dist p q : euclid p q = dist_euc (IZR (row p)) (IZR (col p)) (IZR (row q)) (IZR (col q)).
Proof. unfold euclid, dist_euc, Rsqr. f_equal. ring. Qed.
Lemma euclid_pos p q : 0 <= euclid p q.
Proof. apply sqrt_pos. Qed.
Lemma euclid_zero p : euclid p p = 0.
Proof. rewrite euclid_dist. apply distance_refl. Qed.
Lemma euclid_tri p q r : euclid p r <= euclid p q + euclid q r.
Proof. rewrite !euclid_dist. apply triangle. Qed.

Lemma int_exact k : (0 <= k <= 2 ^ 53)%Z -> is_finite (d_of k 0) = true /\ B2R (d_of k 0) = IZR k /\ d_cost (d_of k 0).
Proof.
  intros Hk. assert (F : generic_format radix2 (SpecFloat.fexp 53 1024) (IZR k)).
  { destruct (Z.eq_dec k (2 ^ 53)) as [->|N].
    - replace (IZR (2 ^ 53)) with (bpow radix2 53) by reflexivity. apply generic_format_bpow. vm_compute. discriminate.
    - replace (IZR k) with (F2R (Float radix2 k 0)) by (unfold F2R; cbn; ring).
      apply generic_format_FLT. exists (Float radix2 k 0); auto; cbn [Fnum Fexp]; [rewrite Z.abs_eq by lia; change (Zpower radix2 53) with (2 ^ 53)%Z; lia|vm_compute; discriminate]. }
  pose proof (binary_normalize_correct 53 1024 prec53 emax1024 mode_NE k 0 false) as H. cbv zeta in H.
  assert (E : F2R (Float radix2 k 0) = IZR k) by (unfold F2R; cbn; ring). rewrite E in H.
  rewrite round_generic in H by auto with typeclass_instances.
  assert (P : 0 <= IZR k) by (apply IZR_le; lia).
  rewrite Rlt_bool_true in H.
  - destruct H as (H1 & H2 & _). split; [exact H2|]. split; [exact H1|]. apply sign_pos; [exact H2|]. unfold d_of. 
    match goal with |- 0 <= ?b => replace b with (IZR k) by (symmetry; exact H1) end. exact P.
  - rewrite Rabs_pos_eq by auto. eapply Rle_lt_trans; [apply IZR_le; apply Hk|]. change (IZR (2 ^ 53)) with (bpow radix2 53). apply bpow_lt. lia.
Qed.

Lemma sqrt_finite (x : double) : d_cost x -> d_finite x -> d_finite (d_sqrt x).
Proof.
  intros C F. pose proof (Bsqrt_correct 53 1024 prec53 emax1024 mode_NE x) as (_ & H & _). unfold d_finite, d_sqrt. 
  match type of H with ?a = _ => change (a = true) end. rewrite H. destruct x as [s|s| |s m e E]; cbn in *; try discriminate; auto. now subst s.
Qed.

Lemma sqrt_close k : (0 <= k <= 2 ^ 53)%Z -> measures d_unit (d_sqrt (d_of k 0)) (sqrt (IZR k)).
Proof.
  intros Hk. destruct (int_exact k Hk) as (F & E & C). set (x := d_of k 0) in *. clearbody x.
  pose proof (sqrt_finite x C F) as Fs.
  pose proof (Bsqrt_correct 53 1024 prec53 emax1024 mode_NE x) as (H & _ & _). change (B2R (d_sqrt x) = rnd (sqrt (B2R x))) in H. rewrite E in H.
  assert (P : 0 <= sqrt (IZR k)) by apply sqrt_pos.
  assert (Q : 0 <= rnd (sqrt (IZR k))) by (apply round_ge_generic; auto with typeclass_instances; apply generic_format_0).
  assert (R0 : Rabs (rnd (sqrt (IZR k)) - sqrt (IZR k)) <= d_unit * sqrt (IZR k)).
  { destruct (Z.eq_dec k 0) as [->|Nz].
    - rewrite sqrt_0, round_0 by auto with typeclass_instances. rewrite Rminus_0_r, Rabs_R0. lra.
    - assert (1 <= sqrt (IZR k)) by (rewrite <- sqrt_1; apply sqrt_le_1_alt; apply IZR_le; lia).
      pose proof (relative_error_N_FLT radix2 (SpecFloat.emin 53 1024) 53 eq_refl (fun x => negb (Z.even x)) (sqrt (IZR k))) as X.
      rewrite (Rabs_pos_eq (sqrt (IZR k))) in X by lra.
      assert (L : bpow radix2 (SpecFloat.emin 53 1024 + 53 - 1) <= sqrt (IZR k)).
      { eapply Rle_trans; [|exact H0]. change 1 with (bpow radix2 0). apply bpow_le. vm_compute. discriminate. }
      specialize (X L). eapply Rle_trans; [exact X|]. apply Req_le. f_equal. unfold d_unit. cbn [bpow]. 
      change (- (53) + 1)%Z with (-52)%Z. cbn. lra. }
  apply Rabs_le_inv in R0. split; [|split].
  - apply sign_pos; auto. rewrite H. exact Q.
  - exact Fs.
  - unfold d_value. rewrite H. lra.
Qed.

Lemma euclid_close m n p q : (0 <= m)%Z -> (0 <= n)%Z -> (m * m + n * n <= 2 ^ 53)%Z -> inside m n p -> inside m n q -> measures d_unit (euclid_double p q) (euclid p q).
Proof.
  intros Hm Hn H [[P1 P2] [P3 P4]] [[Q1 Q2] [Q3 Q4]]. unfold euclid_double, euclid.
  replace ((IZR (row p) - IZR (row q)) ^ 2 + (IZR (col p) - IZR (col q)) ^ 2)
    with (IZR ((row p - row q) * (row p - row q) + (col p - col q) * (col p - col q))).
  - apply sqrt_close. split; [pose proof (Z.square_nonneg (row p - row q)); pose proof (Z.square_nonneg (col p - col q)); lia|]. set (a := (row p - row q)%Z). set (b := (col p - col q)%Z).
    assert (a * a <= m * m)%Z by (assert (-m <= a <= m)%Z by (unfold a; lia); nia).
    assert (b * b <= n * n)%Z by (assert (-n <= b <= n)%Z by (unfold b; lia); nia). lia.
  - rewrite plus_IZR, !mult_IZR, !minus_IZR. ring.
Qed.

Lemma step_short m n occ p q : grid_step m n occ p q -> euclid p q <= 2.
Proof.
  intros (_ & T & _). unfold touches in T. unfold euclid. 
  replace ((IZR (row p) - IZR (row q)) ^ 2 + (IZR (col p) - IZR (col q)) ^ 2)
    with (IZR ((row p - row q) * (row p - row q) + (col p - col q) * (col p - col q))) by (rewrite plus_IZR, !mult_IZR, !minus_IZR; ring).
  rewrite <- (sqrt_square 2) by lra. apply sqrt_le_1_alt. replace (2 * 2) with (IZR 4) by (cbn; ring). apply IZR_le.
  set (a := (row p - row q)%Z) in *. set (b := (col p - col q)%Z) in *.
  assert (-1 <= a <= 1)%Z by lia. assert (-1 <= b <= 1)%Z by lia. nia.
Qed.

Lemma walk_short m n occ l : forall p q, walk m n occ p l q -> walk_cost euclid p l <= 2 * INR (length l).
Proof.
  induction l as [|c l IH]; intros p q H; [cbn; lra|]. destruct H as [Hs H]. cbn [walk_cost length]. rewrite S_INR.
  pose proof (step_short _ _ _ _ _ Hs). pose proof (IH _ _ H). lra.
Qed.

Lemma max_large : 4 * (2 * 2 ^ 53) <= d_max.
Proof.
  unfold d_max. assert (1 <= 2 ^ 53 - 1) by lra. replace (4 * (2 * 2 ^ 53)) with (1 * 2 ^ 56) by lra.
  apply Rmult_le_compat; [lra|apply pow_le; lra|auto|apply Rle_pow; [lra|lia]].
Qed.

Lemma grid_euclid m n occ init goal fuel sol st : inside m n init -> inside m n goal -> (m * m + n * n <= 2 ^ 53)%Z -> (15 * (m * n) <= 2 ^ 53)%Z ->
  n2_search d_ltb d_add d_zero m n euclid_double occ (fun p => euclid_double p goal) init goal fuel = Ok (Some sol, st) ->
  exists l, get_path (Some sol) = Ok (init :: l) /\ walk m n occ init l goal /\
  forall l', walk m n occ init l' goal -> walk_cost euclid init l <= (1 + 60 * IZR (m * n) / 2 ^ 53) * walk_cost euclid init l'.
Proof.
  intros Hi Hg Hs Hmn E. assert (Hm : (0 <= m)%Z) by (destruct Hi; lia). assert (Hn : (0 <= n)%Z) by (destruct Hi; lia).
  set (N := (Z.to_nat m * Z.to_nat n)%nat). assert (EN : INR N = IZR (m * n)).
  { unfold N. rewrite mult_INR, !INR_IZR_INZ, !Z2Nat.id, mult_IZR by auto. reflexivity. }
  pose proof unit_small as U.
  assert (HN : 15 * INR N * d_unit <= 1).
  { rewrite EN. apply IZR_le in Hmn. rewrite mult_IZR in Hmn. replace (IZR (2 ^ 53)) with (2 ^ 53) in Hmn by (change 53%Z with (Z.of_nat 53); rewrite pow_IZR; reflexivity).
    unfold d_unit. apply (Rmult_le_reg_r (2 ^ 53)); [lra|]. rewrite Rmult_assoc, Rinv_l by lra. lra. }
  destruct (grid_near m n occ euclid euclid_double (fun p => euclid_double p goal) d_unit init goal euclid_pos euclid_zero euclid_tri ltac:(lra) Hi
    ltac:(intros p q Hp Hq; apply (euclid_close m n); auto; apply Hq)
    ltac:(intros p Hp; apply (euclid_close m n); auto) N fuel sol st (le_n _) HN E) as (l & H1 & H2 & H3).
  exists l. split; [exact H1|]. split; [exact H2|]. intros l' Hw.
  destruct (loop_free m n occ euclid d_unit euclid_pos ltac:(lra) l' init goal Hw) as (k & K1 & K2 & K3).
  assert (Lk : (length k <= N)%nat).
  { assert (X : (length (init :: k) <= length (all_cells m n))%nat).
    { apply NoDup_incl_length; auto. intros c Hc. apply (all_cells_In m n (fun _ _ => d_zero) occ). apply (walk_inside m n occ k init goal); auto. }
    rewrite all_cells_length in X. cbn in X. unfold N. lia. }
  assert (B : 4 * walk_cost euclid init k <= d_max).
  { pose proof (walk_short m n occ k init goal K1) as X. apply le_INR in Lk.
    assert (INR N <= 2 ^ 53). { unfold d_unit in HN. apply (Rmult_le_reg_r (/ 2 ^ 53)); [apply Rinv_0_lt_compat; lra|]. rewrite Rinv_r by lra. 
      pose proof (pos_INR N). assert (0 <= INR N * / 2 ^ 53) by (apply Rmult_le_pos; lra). lra. }
    pose proof max_large. lra. }
  specialize (H3 k K1 B). rewrite EN in H3. unfold d_unit, Rdiv in *.
  eapply Rle_trans; [exact H3|]. apply Rmult_le_compat_l; auto.
  assert (0 <= IZR (m * n)) by (apply IZR_le; nia). assert (0 <= 60 * IZR (m * n) * / 2 ^ 53) by (apply Rmult_le_pos; lra). lra.
Qed.
