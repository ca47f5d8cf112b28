(** Nonnegative doubles are good costs. *)
From Coq Require Import Reals ZArith Lra Lia.
From Flocq Require Import Core BinarySingleNaN Plus_error Relative.
From Verif Require Import Base Frontier_model Frontier_spec AStar_model AStar_spec AStar_proofs AStar_opt_proofs Rounded_spec RoundedSearch_proofs
  FrontierRel_proofs SearchRel_proofs CostFloat_model CostFloat_spec.
Local Open Scope R_scope.

Notation rnd := (round radix2 (SpecFloat.fexp 53 1024) (round_mode mode_NE)).
#[global] Instance prec53 : Prec_gt_0 53 := eq_refl.
#[global] Instance emax1024 : Prec_lt_emax 53 1024 := eq_refl.
#[global] Instance vexp : Valid_exp (SpecFloat.fexp 53 1024) := fexp_correct 53 1024 prec53.
#[global] Instance vrnd : Valid_rnd (round_mode mode_NE) := valid_rnd_round_mode mode_NE.

Lemma bigpow : bpow radix2 1024 = 2 ^ 1024.
Proof. rewrite bpow_powerRZ. change (1024%Z) with (Z.of_nat 1024). rewrite <- pow_powerRZ. reflexivity. Qed.

Lemma cost_pos x : d_cost x -> 0 <= B2R x.
Proof.
  destruct x as [s|s| |s m e H]; cbn; try lra. intros ->. apply F2R_ge_0. cbn. lia.
Qed.
Lemma sign_pos (x : double) : is_finite x = true -> 0 <= B2R x -> d_cost x.
Proof.
  destruct x as [s|s| |s m e H]; cbn; try discriminate; auto. intros _ Hx. destruct s; auto. exfalso.
  assert (N : F2R (Float radix2 (Zneg m) e) < 0) by (apply F2R_lt_0; reflexivity). change (0 <= F2R (Float radix2 (Zneg m) e)) in Hx. lra.
Qed.

Lemma add_fin x y : d_cost x -> d_cost y -> d_finite x -> d_finite y ->
  (rnd (B2R x + B2R y) < bpow radix2 1024 /\ d_finite (d_add x y) /\ B2R (d_add x y) = rnd (B2R x + B2R y)) \/
  (bpow radix2 1024 <= rnd (B2R x + B2R y) /\ d_add x y = B754_infinity false).
Proof.
  intros Cx Cy Fx Fy. pose proof (cost_pos _ Cx) as Px. pose proof (cost_pos _ Cy) as Py.
  assert (P : 0 <= rnd (B2R x + B2R y)). { apply round_ge_generic; auto with typeclass_instances; [apply generic_format_0|lra]. }
  pose proof (Bplus_correct 53 1024 prec53 emax1024 mode_NE x y Fx Fy) as H. rewrite Rabs_pos_eq in H by auto.
  destruct (Rlt_bool_spec (rnd (B2R x + B2R y)) (bpow radix2 1024)) as [L|L].
  - left. destruct H as (H1 & H2 & _). split; [exact L|]. split; [exact H2|exact H1].
  - right. split; [exact L|]. destruct H as [H Hs].
    assert (Sx : Bsign x = false).
    { destruct (Bsign x) eqn:E; auto. exfalso. assert (B2R x = 0 /\ B2R y = 0) as [Zx Zy].
      { destruct x as [s|s| |s m e Hx], y as [s'|s'| |s' m' e' Hy]; cbn in *; try discriminate; auto; subst; congruence. }
      rewrite Zx, Zy, Rplus_0_l, round_0 in L by auto with typeclass_instances. pose proof (bpow_gt_0 radix2 1024). lra. }
    rewrite Sx in H. unfold d_add. cbn in H. apply B2SF_inj. exact H.
Qed.

Lemma add_inf_l y : d_cost y -> d_add (B754_infinity false) y = B754_infinity false.
Proof. destruct y as [s|s| |s m e H]; cbn; try easy. intros ->. reflexivity. Qed.
Lemma add_inf_r x : d_cost x -> d_add x (B754_infinity false) = B754_infinity false.
Proof. destruct x as [s|s| |s m e H]; cbn; try easy. intros ->. reflexivity. Qed.

Lemma cost_cases x : d_cost x -> d_finite x \/ x = B754_infinity false.
Proof. unfold d_finite. destruct x as [s|s| |s m e H]; cbn; auto; try easy. intros ->. auto. Qed.

Lemma add_cost x y : d_cost x -> d_cost y -> d_cost (d_add x y).
Proof.
  intros Cx Cy. destruct (cost_cases x Cx) as [Fx| ->]; [|now rewrite add_inf_l].
  destruct (cost_cases y Cy) as [Fy| ->]; [|now rewrite add_inf_r].
  destruct (add_fin x y Cx Cy Fx Fy) as [(L & F & E)|[L ->]]; [|reflexivity].
  apply sign_pos; auto. rewrite E. pose proof (cost_pos _ Cx). pose proof (cost_pos _ Cy).
  apply round_ge_generic; auto with typeclass_instances; [apply generic_format_0|lra].
Qed.

(** Comparison of costs. *)
Lemma ltb_fin x y : d_finite x -> d_finite y -> d_ltb x y = Rlt_bool (B2R x) (B2R y).
Proof. apply Bltb_correct. Qed.
Lemma ltb_inf_l y : d_cost y -> d_ltb (B754_infinity false) y = false.
Proof. destruct y as [s|s| |s m e H]; cbn; try easy. intros ->. reflexivity. Qed.
Lemma ltb_inf_r x : d_finite x -> d_ltb x (B754_infinity false) = true.
Proof. destruct x as [s|s| |s m e H]; cbn; easy. Qed.

Lemma ltb_false x y : d_cost x -> d_cost y -> d_ltb y x = false <-> (y = B754_infinity false \/ (d_finite x /\ d_finite y /\ B2R x <= B2R y)).
Proof.
  intros Cx Cy. destruct (cost_cases x Cx) as [Fx| ->].
  - destruct (cost_cases y Cy) as [Fy| ->].
    + rewrite ltb_fin by auto. destruct (Rlt_bool_spec (B2R y) (B2R x)) as [L|L]; split; intros H; auto; try discriminate.
      destruct H as [->|(_ & _ & H)]; [discriminate|lra].
    + rewrite ltb_inf_l by auto. split; auto.
  - destruct (cost_cases y Cy) as [Fy| ->].
    + rewrite ltb_inf_r by auto. split; [discriminate|]. intros [->|(H & _)]; discriminate.
    + split; auto.
Qed.

(** ** The subset of costs *)
Definition costs : Type := { x : double | d_cost x }.
Definition c_dbl (x : costs) : double := proj1_sig x.
Definition c_ok (x : costs) : d_cost (c_dbl x) := proj2_sig x.
Definition c_ltb (x y : costs) : bool := d_ltb (c_dbl x) (c_dbl y).
Definition c_add (x y : costs) : costs := exist _ (d_add (c_dbl x) (c_dbl y)) (add_cost _ _ (c_ok x) (c_ok y)).
Definition c_zero : costs := exist _ d_zero I.

Lemma costs_laws : cost_laws c_ltb c_add.
Proof.
  assert (lef : forall x y : costs, c_ltb y x = false <-> (c_dbl y = B754_infinity false \/ (d_finite (c_dbl x) /\ d_finite (c_dbl y) /\ B2R (c_dbl x) <= B2R (c_dbl y)))).
  { intros x y. apply ltb_false; apply c_ok. }
  assert (Hincomp : forall a b c, c_ltb a b = false -> c_ltb b c = false -> c_ltb a c = false).
  { intros a b c H1 H2. apply lef in H1. apply lef in H2. apply lef. destruct H1 as [->|(Fb & Fa & L)]; auto.
    destruct H2 as [H2|(Fc & _ & L')]; [rewrite H2 in Fb; discriminate|]. right. repeat split; auto. lra. }
  assert (Hirr : forall a, c_ltb a a = false).
  { intros a. apply lef. destruct (cost_cases (c_dbl a) (c_ok a)) as [F|F]; auto. right. repeat split; auto. lra. }
  split; auto.
  - intros a b c Hab Hbc. destruct (c_ltb a c) eqn:E; auto. exfalso. apply lef in E.
    destruct E as [E|(Fc & Fa & L)].
    + unfold c_ltb in Hab. rewrite E, ltb_inf_l in Hab by (apply c_ok). discriminate.
    + destruct (cost_cases (c_dbl b) (c_ok b)) as [F|F].
      * unfold c_ltb in *. rewrite ltb_fin in Hab, Hbc by auto. destruct (Rlt_bool_spec (B2R (c_dbl a)) (B2R (c_dbl b))); [|discriminate].
        destruct (Rlt_bool_spec (B2R (c_dbl b)) (B2R (c_dbl c))); [lra|discriminate].
      * unfold c_ltb in Hbc. rewrite F, ltb_inf_l in Hbc by (apply c_ok). discriminate.
  - unfold leb. intros a b c H. apply lef in H. apply lef. cbn [c_add c_dbl proj1_sig].
    pose proof (c_ok a) as Ca. pose proof (c_ok b) as Cb. pose proof (c_ok c) as Cc.
   
    destruct H as [H|(Fa & Fb & L)]; [left; now rewrite H, add_inf_l|].
    destruct (cost_cases _ Cc) as [Fc|Fc]; [|left; now rewrite Fc, add_inf_r].
    destruct (add_fin _ _ Cb Cc Fb Fc) as [(Lb & Fbc & Eb)|[_ E]]; auto. right.
    assert (M : rnd (B2R (c_dbl a) + B2R (c_dbl c)) <= rnd (B2R (c_dbl b) + B2R (c_dbl c))) by (apply round_le; auto with typeclass_instances; lra).
    destruct (add_fin _ _ Ca Cc Fa Fc) as [(La & Fac & Ea)|[La _]]; [|lra].
    repeat split; auto. rewrite Ea, Eb. exact M.
Qed.

Lemma fmt x : generic_format radix2 (SpecFloat.fexp 53 1024) (B2R (x : double)).
Proof. apply generic_format_B2R. Qed.

Lemma unit_val : u_ro radix2 53 = d_unit.
Proof. unfold u_ro, d_unit. rewrite bpow_powerRZ. change (- (53) + 1)%Z with (- 52)%Z. cbn [powerRZ]. change (Pos.to_nat 52) with 52%nat. cbn [radix_val radix2]. field. Qed.
Lemma unit_range : 0 < d_unit < 1.
Proof. unfold d_unit. lra. Qed.

Lemma rnd_error x y : exists eps, Rabs eps <= d_unit /\ rnd (B2R (x : double) + B2R (y : double)) = (B2R x + B2R y) * (1 + eps).
Proof.
  destruct (FLT_plus_error_N_ex radix2 (SpecFloat.emin 53 1024) 53 (fun x => negb (Z.even x)) (B2R x) (B2R y) (fmt x) (fmt y)) as (eps & He & E).
  exists eps. split; [|exact E]. eapply Rle_trans; [exact He|]. rewrite unit_val. pose proof unit_range as U.
  apply (Rmult_le_reg_r (1 + d_unit)); [lra|]. unfold Rdiv. rewrite Rmult_assoc, Rinv_l by lra. nra.
Qed.

Lemma max_format : generic_format radix2 (SpecFloat.fexp 53 1024) d_max.
Proof.
  unfold d_max. replace ((2 ^ 53 - 1) * 2 ^ 971) with (F2R (Float radix2 (2 ^ 53 - 1) 971)).
  - apply generic_format_FLT. exists (Float radix2 (2 ^ 53 - 1) 971); auto; cbn [Fnum Fexp]; vm_compute; try easy; discriminate.
  - unfold F2R. cbn [Fnum Fexp]. rewrite minus_IZR. rewrite bpow_powerRZ. change 971%Z with (Z.of_nat 971). rewrite <- pow_powerRZ.
    change (IZR radix2) with 2. f_equal. f_equal. change 53%Z with (Z.of_nat 53). rewrite <- pow_IZR. reflexivity.
Qed.
Lemma max_lt : d_max < bpow radix2 1024.
Proof.
  rewrite bigpow. unfold d_max. replace (2 ^ 1024) with (2 ^ 53 * 2 ^ 971) by (rewrite <- pow_add; reflexivity).
  apply Rmult_lt_compat_r; [apply pow_lt; lra|lra].
Qed.

Definition c_val (x : costs) : R := d_value (c_dbl x).
Definition c_fin (x : costs) : Prop := d_finite (c_dbl x).

Lemma c_add_fin a b : c_fin (c_add a b) -> c_fin a /\ c_fin b /\ c_val (c_add a b) = rnd (c_val a + c_val b).
Proof.
  destruct a as [a Ca], b as [b Cb]. unfold c_fin, c_val, d_value. cbn [c_add c_dbl proj1_sig]. intros F.
  destruct (cost_cases a Ca) as [Fa| ->]; [|rewrite add_inf_l in F by auto; discriminate].
  destruct (cost_cases b Cb) as [Fb| ->]; [|rewrite add_inf_r in F by auto; discriminate].
  destruct (add_fin a b Ca Cb Fa Fb) as [(_ & _ & E)|[_ E]]; auto. rewrite E in F. discriminate.
Qed.

Lemma costs_rounded : rounded c_ltb c_add c_zero c_val c_fin d_unit d_max.
Proof.
  pose proof unit_range as U. split.
  - apply costs_laws.
  - lra.
  - reflexivity.
  - reflexivity.
  - intros [a Ca] _. now apply cost_pos.
  - intros [a Ca] [b Cb] H F. unfold leb, c_ltb, c_fin, c_val, d_value in *. cbn [c_dbl proj1_sig] in *. apply ltb_false in H; auto.
    destruct H as [->|(Fa & _ & L)]; [discriminate|auto].
  - intros a b F. apply c_add_fin in F as (Fa & Fb & _). auto.
  - intros [a Ca] [b Cb]. unfold c_fin, c_val, d_value. cbn [c_add c_dbl proj1_sig]. intros Fa Fb L.
    destruct (add_fin a b Ca Cb Fa Fb) as [(_ & F & _)|[O _]]; auto. exfalso.
    assert (rnd (B2R a + B2R b) <= d_max) by (apply round_le_generic; auto with typeclass_instances; apply max_format).
    pose proof max_lt. lra.
  - intros a b F. destruct (c_add_fin a b F) as (Fa & Fb & ->). destruct (rnd_error (c_dbl a) (c_dbl b)) as (eps & He & E).
    unfold c_val, d_value. rewrite E. pose proof (cost_pos _ (c_ok a)). pose proof (cost_pos _ (c_ok b)).
    apply Rabs_le_inv in He. nra.
  - intros a b F. destruct (c_add_fin a b F) as (Fa & Fb & ->). destruct (rnd_error (c_dbl a) (c_dbl b)) as (eps & He & E).
    unfold c_val, d_value. rewrite E. pose proof (cost_pos _ (c_ok a)). pose proof (cost_pos _ (c_ok b)).
    apply Rabs_le_inv in He. nra.
Qed.
