(** Validation of paths in single and double precision. *)
From Coq Require Import Reals ZArith Lra Lia.
From Flocq Require Import Core BinarySingleNaN Relative Plus_error.
From Verif Require Import Base CoordsFloat_model CoordsFloat_proofs StraightFloat_model StraightFloat_proofs ValidatorFloat_model.
Local Open Scope R_scope.
#[local] Existing Instance prec24.
#[local] Existing Instance emax128.
#[local] Existing Instance vexp24.
#[local] Existing Instance prec53.
#[local] Existing Instance emax1024.
#[local] Existing Instance vexp53.
#[local] Existing Instance vrndne.

Lemma narrow_real (x : double) : is_finite x = true -> Rabs (B2R x) <= bpow radix2 127 -> is_finite (narrow x) = true /\ B2R (narrow x) = rnd24 (B2R x).
Proof.
  destruct x as [s|s| |s m e H]; intros F B; try discriminate; cbn [narrow].
  { split; [reflexivity|]. cbn [B2R]. now rewrite round_0 by auto with typeclass_instances. }
  pose proof (binary_normalize_correct 24 128 prec24 emax128 mode_NE (SpecFloat.cond_Zopp s (Zpos m)) e s) as C. cbv zeta in C.
  change (B2R (B754_finite s m e H)) with (F2R (Float radix2 (SpecFloat.cond_Zopp s (Zpos m)) e)) in *.
  rewrite (rnd24_small _ 127) in C; [|lia|exact B]. destruct C as (C1 & C2 & _). split; [exact C2|exact C1].
Qed.

Lemma ssub_real (x y : single) : is_finite x = true -> is_finite y = true -> Rabs (B2R x - B2R y) <= bpow radix2 101 ->
  is_finite (s_sub x y) = true /\ B2R (s_sub x y) = rnd24 (B2R x - B2R y).
Proof.
  intros Fx Fy H. pose proof (Bminus_correct 24 128 prec24 emax128 mode_NE x y Fx Fy) as C. rewrite (rnd24_small _ 101) in C; [|lia|exact H].
  destruct C as (C1 & C2 & _). split; assumption.
Qed.

Lemma sltb (x y : single) : is_finite x = true -> is_finite y = true -> Bltb x y = true <-> B2R x < B2R y.
Proof. intros Fx Fy. rewrite Bltb_correct by assumption. split; [intros H; destruct (Rlt_bool_spec (B2R x) (B2R y)); [assumption|discriminate]|apply Rlt_bool_true]. Qed.
Lemma sleb (x y : single) : is_finite x = true -> is_finite y = true -> Bleb x y = true <-> B2R x <= B2R y.
Proof. intros Fx Fy. rewrite Bleb_correct by assumption. split; [intros H; destruct (Rle_bool_spec (B2R x) (B2R y)); [assumption|discriminate]|apply Rle_bool_true]. Qed.
Lemma dltb (x y : double) : is_finite x = true -> is_finite y = true -> Bltb x y = true <-> B2R x < B2R y.
Proof. intros Fx Fy. rewrite Bltb_correct by assumption. split; [intros H; destruct (Rlt_bool_spec (B2R x) (B2R y)); [assumption|discriminate]|apply Rlt_bool_true]. Qed.

Lemma u24_val : bpow radix2 (-24) = / 16777216. Proof. reflexivity. Qed.
Lemma u53_val : u53 = / 9007199254740992. Proof. reflexivity. Qed.

(** Differences of singles have a relative error only. *)
Lemma minus24 (x y : single) : Rabs (rnd24 (B2R x - B2R y) - (B2R x - B2R y)) <= bpow radix2 (-24) * Rabs (B2R x - B2R y).
Proof.
  rewrite fexp24.
  destruct (FLT_plus_error_N_ex radix2 (-149) 24 (fun z => negb (Z.even z)) (B2R x) (- B2R y)) as (e & He & E).
  { rewrite <- fexp24. apply generic_format_B2R. }
  { rewrite <- fexp24. apply generic_format_opp, generic_format_B2R. }
  change (round_mode mode_NE) with ZnearestE. change (B2R x - B2R y) with (B2R x + - B2R y). rewrite E.
  replace ((B2R x + - B2R y) * (1 + e) - (B2R x + - B2R y)) with (e * (B2R x + - B2R y)) by ring.
  rewrite Rabs_mult. apply Rmult_le_compat_r; [apply Rabs_pos|]. eapply Rle_trans; [exact He|].
  assert (U : u_ro radix2 24 = bpow radix2 (-24)). { unfold u_ro. change (/ 2) with (bpow radix2 (-1)). rewrite <- bpow_plus. reflexivity. }
  rewrite U, u24_val. lra.
Qed.

Section Proofs.
  Context {St : Type} (xy : St -> double * double) (interp : double -> res St) (inside : St -> res bool) (distance : St -> res single).
  Context (lb ub : double * double) (minSafe minStep : single).
  Context (Fsafe : is_finite minSafe = true) (Bsafe : Rabs (B2R minSafe) <= bpow radix2 100).
  Context (Fstep : is_finite minStep = true) (Pstep : 0 < B2R minStep) (Bstep : B2R minStep <= bpow radix2 100).
  Local Notation step := (f_step xy lb ub minSafe minStep).

  (** The step: at least the least one; otherwise at most the clearance, up to rounding. *)
  Lemma step_real x d : is_finite d = true -> Rabs (B2R d) <= bpow radix2 100 -> B2R minSafe <= B2R d ->
    is_finite (step x d) = true /\ B2R minStep <= B2R (step x d) <= bpow radix2 101 /\
    (B2R (step x d) = B2R minStep \/ B2R (step x d) <= (1 + bpow radix2 (-24)) * (B2R d - B2R minSafe)).
  Proof.
    intros Fd Bd Hd. assert (E2 : bpow radix2 101 = 2 * bpow radix2 100) by (change 101%Z with (1 + 100)%Z; rewrite bpow_plus; reflexivity).
    assert (P : 0 < bpow radix2 100) by apply bpow_gt_0.
    assert (A : Rabs (B2R d - B2R minSafe) <= bpow radix2 101).
    { rewrite E2. apply Rabs_le. apply Rabs_le_inv in Bd, Bsafe. lra. }
    destruct (ssub_real d minSafe Fd Fsafe A) as [Fe Ee]. pose proof (minus24 d minSafe) as M. rewrite <- Ee in M.
    assert (Be : Rabs (B2R (s_sub d minSafe)) <= bpow radix2 101).
    { rewrite Ee. apply abs_round_le_generic; auto with typeclass_instances. apply format24_pow. lia. }
    set (e := s_sub d minSafe) in *. rewrite (Rabs_pos_eq (B2R d - B2R minSafe)) in M by lra. apply Rabs_le_inv in M. apply Rabs_le_inv in Be.
    assert (Top : B2R e <= (1 + bpow radix2 (-24)) * (B2R d - B2R minSafe)) by lra.
    unfold f_step. fold e. set (b := f_border xy lb ub x).
    assert (K : (exists m, s_min e b = m /\ is_finite m = true /\ B2R m <= B2R e) \/ s_min e b = B754_infinity true).
    { unfold s_min. destruct (Bltb b e) eqn:L; [|left; exists e; repeat split; auto; lra].
      destruct b as [s|s| |s mb eb Hb] eqn:Eb.
      - left. eexists. split; [reflexivity|]. split; [reflexivity|]. apply sltb in L; auto. lra.
      - right. destruct s; [reflexivity|]. destruct e as [?|[]| |? ? ? ?]; try discriminate; destruct s; discriminate.
      - destruct e as [?|?| |? ? ? ?]; discriminate.
      - left. eexists. split; [reflexivity|]. split; [reflexivity|]. apply sltb in L; auto. lra. }
    destruct K as [(m & -> & Fm & Hm)| ->].
    - unfold s_max. destruct (Bltb m minStep) eqn:L.
      + split; [exact Fstep|]. split; [lra|now left].
      + assert (B2R minStep <= B2R m). { apply Rnot_lt_le. intros Q. apply sltb in Q; auto. congruence. }
        split; [exact Fm|]. split; [lra|]. right. lra.
    - unfold s_max. assert (L : Bltb (B754_infinity true) minStep = true) by (destruct minStep as [?|?| |? ? ? ?]; try discriminate; reflexivity).
      rewrite L. split; [exact Fstep|]. split; [lra|now left].
  Qed.

  Context (L : double) (FL : is_finite L = true) (PL : 0 < B2R L) (BL : B2R L <= bpow radix2 100).

  (** The ratio of a length. *)
  Lemma ratio_real (l : double) : is_finite l = true -> 0 <= B2R l <= B2R L ->
    is_finite (d_div l L) = true /\ 0 <= B2R (d_div l L) <= 1 /\ Rabs (B2R (d_div l L) * B2R L - B2R l) <= bpow radix2 (-51) * B2R L.
  Proof.
    intros Fl Hl. assert (Q : 0 <= B2R l / B2R L <= 1).
    { split; [apply Rmult_le_pos; [lra|apply Rlt_le, Rinv_0_lt_compat; lra]|]. apply Rmult_le_reg_r with (B2R L); [lra|].
      unfold Rdiv. rewrite Rmult_assoc, Rinv_l by lra. lra. }
    assert (A : Rabs (B2R l / B2R L) <= bpow radix2 0) by (rewrite Rabs_pos_eq by lra; cbn; lra).
    destruct (div_real l L 0 Fl) as [F E]; [lra|lia|exact A|]. split; [exact F|]. rewrite E. split.
    - split.
      + rewrite <- (round_0 radix2 (SpecFloat.fexp 53 1024) (round_mode mode_NE)). apply round_le; auto with typeclass_instances. lra.
      + replace 1 with (rnd53 1); [apply round_le; auto with typeclass_instances; lra|].
        apply round_generic; auto with typeclass_instances. change 1 with (bpow radix2 0). apply format53_pow. lia.
    - pose proof (StraightFloat_proofs.err53 (B2R l / B2R L)) as D. rewrite (Rabs_pos_eq (B2R l / B2R L)) in D by lra.
      replace (rnd53 (B2R l / B2R L) * B2R L - B2R l) with ((rnd53 (B2R l / B2R L) - B2R l / B2R L) * B2R L) by (field; lra).
      rewrite Rabs_mult, (Rabs_pos_eq (B2R L)) by lra. apply Rmult_le_compat_r; [lra|]. eapply Rle_trans; [exact D|].
      assert (T : eta53 <= u53) by (apply bpow_le; lia). rewrite u53_val in *. change (bpow radix2 (-51)) with (/ 2251799813685248). lra.
  Qed.

  Lemma not_zero : Beqb L d_zero = false.
  Proof. destruct L as [?|?| |? ? ? ?]; try reflexivity; cbn [B2R] in PL; try lra. destruct s; reflexivity. Qed.

  (** The next length. *)
  Lemma next_real (l : double) (st : single) : is_finite l = true -> is_finite st = true -> 0 <= B2R l <= B2R L -> 0 <= B2R st <= bpow radix2 101 ->
    is_finite (d_add l (widen st)) = true /\ B2R l <= B2R (d_add l (widen st)) /\
    Rabs (B2R (d_add l (widen st)) - (B2R l + B2R st)) <= u53 * (B2R l + B2R st).
  Proof.
    intros Fl Fs Hl Hs. destruct (widen_real st Fs) as [Fw Ew].
    assert (E2 : bpow radix2 101 = 2 * bpow radix2 100) by (change 101%Z with (1 + 100)%Z; rewrite bpow_plus; reflexivity).
    assert (E4 : bpow radix2 102 = 4 * bpow radix2 100) by (change 102%Z with (2 + 100)%Z; rewrite bpow_plus; reflexivity).
    destruct (add_real l (widen st) 102 Fl Fw) as [F E]; [lia|rewrite Ew; apply Rabs_le; lra|].
    split; [exact F|]. split.
    - rewrite E. rewrite <- (rnd_double l) at 1. apply round_le; auto with typeclass_instances. lra.
    - pose proof (plus53 l (widen st)) as P. rewrite <- E, Ew in P. rewrite (Rabs_pos_eq (B2R l + B2R st)) in P by lra. exact P.
  Qed.

  (** What makes a state valid. *)
  Lemma valid_inv x : f_state_valid inside distance minSafe x = Ok true -> inside x = Ok true /\ exists d, distance x = Ok d /\ Bleb minSafe d = true.
  Proof.
    unfold f_state_valid. intros H. destruct (inside x) as [[]| | |]; try discriminate. cbn [bind] in H. split; [reflexivity|].
    destruct (distance x) as [d| | |]; try discriminate. cbn [bind] in H. injection H as H. eauto.
  Qed.

  (** The distances reported are numbers. *)
  Definition reported : Prop := forall (r : double) x d, is_finite r = true -> 0 <= B2R r <= 1 -> interp r = Ok x -> inside x = Ok true -> distance x = Ok d ->
    is_finite d = true /\ Rabs (B2R d) <= bpow radix2 100.

  Section Clear.
    (** A margin [h] along the path, the margin [m] of the states sampled, and the margin [T] required. A step is at most what is left of the margin. *)
    Context (Rep : reported) (h : R -> R) (eps T : R) (m : St -> R).
    Context (Hh : forall s t, 0 <= s <= B2R L -> 0 <= t <= B2R L -> h s - h t <= Rabs (s - t)).
    Context (Hm : forall (r : double) x d, is_finite r = true -> 0 <= B2R r <= 1 -> interp r = Ok x -> inside x = Ok true -> distance x = Ok d ->
      B2R minSafe <= B2R d -> T <= m x <= h (B2R r * B2R L) + eps /\
      (B2R (step x d) = B2R minStep \/ B2R (step x d) <= (1 + bpow radix2 (-23)) * (m x - T))).
    Definition good (s : R) : Prop := T - B2R minStep - eps - bpow radix2 (-21) * B2R L <= h s.

    (** A valid sample covers its surroundings and the step to the next one. *)
    Lemma sample_covers (l : double) x d : is_finite l = true -> 0 <= B2R l < B2R L -> interp (d_div l L) = Ok x ->
      f_state_valid inside distance minSafe x = Ok true -> distance x = Ok d ->
      is_finite d = true /\ Rabs (B2R d) <= bpow radix2 100 /\ B2R minSafe <= B2R d /\
      (forall s, 0 <= s <= B2R L -> Rabs (s - B2R l) <= bpow radix2 (-23) * B2R L -> good s) /\
      (forall s, B2R l <= s <= B2R L -> s <= B2R (d_add l (widen (step x d))) -> good s).
    Proof.
      intros Fl Hl Hx Hv Hx'. destruct (valid_inv x Hv) as (Hi & d' & E & V). rewrite Hx' in E. injection E as <-.
      destruct (ratio_real l Fl) as (Fr & Hr & Ha); [lra|]. destruct (Rep _ x d Fr Hr Hx Hi Hx') as (Fd & Bd).
      apply sleb in V; auto. destruct (Hm _ x d Fr Hr Hx Hi Hx' V) as [[M1 M2] Cs]. set (a := B2R (d_div l L) * B2R L) in *.
      assert (Ra : 0 <= a <= B2R L). { unfold a. split; [apply Rmult_le_pos; lra|]. nra. }
      assert (Key : forall s, 0 <= s <= B2R L -> m x - eps - Rabs (s - B2R l) - bpow radix2 (-51) * B2R L <= h s).
      { intros s Hs. pose proof (Hh a s Ra Hs) as Q. assert (Rabs (a - s) <= Rabs (s - B2R l) + bpow radix2 (-51) * B2R L); [|lra].
        replace (a - s) with ((a - B2R l) + (B2R l - s)) by ring. eapply Rle_trans; [apply Rabs_triang|]. rewrite (Rabs_minus_sym (B2R l) s). lra. }
      change (bpow radix2 (-51)) with (/ 2251799813685248) in Key. unfold good. change (bpow radix2 (-21)) with (/ 2097152).
      change (bpow radix2 (-23)) with (/ 8388608) in *.
      split; [exact Fd|]. split; [exact Bd|]. split; [exact V|]. split.
      - intros s Hs Hn. specialize (Key s Hs). lra.
      - intros s Hs Hn. specialize (Key s ltac:(lra)). rewrite Rabs_pos_eq in Key by lra.
        destruct (step_real x d Fd Bd V) as (Fs & Bs & _). destruct (next_real l (step x d) Fl Fs) as (Fn & _ & Dn); [lra|lra|].
        apply Rabs_le_inv in Dn. rewrite u53_val in Dn. set (st := B2R (step x d)) in *. destruct Cs as [Cs|Cs].
        + destruct (Rle_lt_dec (B2R minStep) (B2R L)); lra.
        + destruct (Rle_lt_dec (2 * B2R L) (m x - T)); lra.
    Qed.

    (** The ratio of the last valid sample, stored as a single. *)
    Lemma last_real (l : double) : is_finite l = true -> 0 <= B2R l <= B2R L ->
      is_finite (narrow (d_div l L)) = true /\ 0 <= B2R (narrow (d_div l L)) <= 1 /\
      Rabs (B2R (narrow (d_div l L)) * B2R L - B2R l) <= bpow radix2 (-23) * B2R L.
    Proof.
      intros Fl Hl. destruct (ratio_real l Fl Hl) as (Fr & Hr & Ha). set (q := d_div l L) in *.
      destruct (narrow_real q Fr) as [Fn En].
      { rewrite Rabs_pos_eq by lra. apply Rle_trans with (bpow radix2 0); [cbn; lra|apply bpow_le; lia]. }
      split; [exact Fn|]. rewrite En. split.
      - split.
        + rewrite <- (round_0 radix2 (SpecFloat.fexp 24 128) (round_mode mode_NE)). apply round_le; auto with typeclass_instances. lra.
        + replace 1 with (rnd24 1); [apply round_le; auto with typeclass_instances; lra|].
          apply round_generic; auto with typeclass_instances. change 1 with (bpow radix2 0). apply format24_pow. lia.
      - pose proof (err24 (B2R q)) as D. rewrite (Rabs_pos_eq (B2R q)) in D by lra.
        assert (Te : bpow radix2 (-150) <= bpow radix2 (-50)) by (apply bpow_le; lia).
        rewrite u24_val in D. change (bpow radix2 (-50)) with (/ 1125899906842624) in Te. change (bpow radix2 (-51)) with (/ 2251799813685248) in Ha.
        change (bpow radix2 (-23)) with (/ 8388608).
        replace (rnd24 (B2R q) * B2R L - B2R l) with ((rnd24 (B2R q) - B2R q) * B2R L + (B2R q * B2R L - B2R l)) by ring.
        eapply Rle_trans; [apply Rabs_triang|]. rewrite Rabs_mult, (Rabs_pos_eq (B2R L)) by lra.
        assert (Rabs (rnd24 (B2R q) - B2R q) * B2R L <= (/ 16777216 + / 1125899906842624) * B2R L) by (apply Rmult_le_compat_r; lra). lra.
    Qed.

    Lemma one_single : B2R (s_of 1 0) = 1 /\ is_finite (s_of 1 0) = true.
    Proof. destruct (of_int_real 1) as [A B]; [lia|]. auto. Qed.

    Lemma loop_clear k : forall (l lv : double) b r, is_finite l = true -> 0 <= B2R l -> is_finite lv = true -> 0 <= B2R lv <= B2R L -> B2R lv <= B2R l ->
      (forall s, 0 <= s <= B2R L -> s <= B2R l -> good s) ->
      (forall s, 0 <= s <= B2R L -> Rabs (s - B2R lv) <= bpow radix2 (-23) * B2R L -> good s) ->
      f_loop xy interp inside distance lb ub minSafe minStep k L l lv = Ok (b, r) ->
      is_finite r = true /\ 0 <= B2R r <= 1 /\ (b = true -> B2R r = 1) /\ forall s, 0 <= s <= B2R r * B2R L -> good s.
    Proof.
      induction k as [|k IH]; intros l lv b r Fl Pl Fv Pv Vl Cov Near H; cbn [f_loop] in H; destruct (Bltb l L) eqn:E; try discriminate.
      - assert (r = s_of 1 0 /\ b = true) as [-> ->] by (split; congruence). clear H. destruct one_single as [E1 F1]. rewrite E1. split; [exact F1|]. split; [lra|]. split; [auto|].
        assert (B2R L <= B2R l). { apply Rnot_lt_le. intros Q. apply dltb in Q; auto. congruence. }
        intros s Hs. apply Cov; lra.
      - apply dltb in E; auto. destruct (interp (d_div l L)) as [x| | |] eqn:Ex; try discriminate. cbn [bind] in H.
        destruct (f_state_valid inside distance minSafe x) as [v| | |] eqn:Ev; try discriminate. cbn [bind] in H.
        destruct v; cbn [negb] in H.
        + destruct (distance x) as [d| | |] eqn:Ed; try discriminate. cbn [bind] in H.
          destruct (sample_covers l x d Fl ltac:(lra) Ex Ev Ed) as (Fd & Bd & Vd & N & C).
          destruct (step_real x d Fd Bd Vd) as (Fs & Bs & _). destruct (next_real l (step x d) Fl Fs) as (Fn & Ln & _); [lra|lra|].
          apply (IH _ l b r) in H; auto; try lra.
          intros s Hs Hn. destruct (Rle_lt_dec s (B2R l)); [now apply Cov|]. apply C; [lra|exact Hn].
        + injection H as <- <-. destruct (last_real lv Fv Pv) as (Fr & Hr & Dr). split; [exact Fr|]. split; [exact Hr|]. split; [discriminate|].
          intros s Hs. assert (B2R (narrow (d_div lv L)) * B2R L <= B2R L) by nra.
          destruct (Rle_lt_dec s (B2R lv)); [apply Cov; lra|]. apply Near; [lra|]. apply Rabs_le_inv in Dr. rewrite Rabs_pos_eq; lra.
      - assert (r = s_of 1 0 /\ b = true) as [-> ->] by (split; congruence). clear H. destruct one_single as [E1 F1]. rewrite E1. split; [exact F1|]. split; [lra|]. split; [auto|].
        assert (B2R L <= B2R l). { apply Rnot_lt_le. intros Q. apply dltb in Q; auto. congruence. }
        intros s Hs. apply Cov; lra.
    Qed.

    Lemma path_clear fuel init b r : interp (d_div d_zero L) = Ok init -> f_state_valid inside distance minSafe init = Ok true ->
      f_path_valid xy interp inside distance lb ub minSafe minStep fuel init L = Ok (b, r) ->
      is_finite r = true /\ 0 <= B2R r <= 1 /\ (b = true -> B2R r = 1) /\ forall s, 0 <= s <= B2R r * B2R L -> good s.
    Proof.
      intros Hx Hv H. unfold f_path_valid in H. rewrite not_zero in H.
      assert (Z : is_finite d_zero = true /\ B2R d_zero = 0) by (split; reflexivity). destruct Z as [FZ EZ].
      assert (E : Bltb d_zero L = true) by (apply dltb; auto; rewrite EZ; exact PL).
      destruct fuel as [|k]; cbn [f_loop] in H; rewrite E in H; [discriminate|]. rewrite Hx in H. cbn [bind] in H. rewrite Hv in H. cbn [bind negb] in H.
      destruct (distance init) as [d| | |] eqn:Ed; try discriminate. cbn [bind] in H.
      destruct (sample_covers d_zero init d FZ ltac:(rewrite EZ; lra) Hx Hv Ed) as (Fd & Bd & Vd & N & C).
      destruct (step_real init d Fd Bd Vd) as (Fs & Bs & _). destruct (next_real d_zero (step init d) FZ Fs) as (Fn & Ln & _); [rewrite EZ; lra|lra|].
      apply (loop_clear k _ d_zero b r) in H; auto; try (rewrite EZ in *; lra).
    Qed.
  End Clear.

  (** The distance to the border, up to rounding. *)
  Definition far (x : double) : Prop := is_finite x = true /\ Rabs (B2R x) <= bpow radix2 99.
  Lemma diff_real (x y : double) : far x -> far y -> B2R y <= B2R x ->
    is_finite (d_sub x y) = true /\ 0 <= B2R (d_sub x y) <= bpow radix2 100 /\ B2R (d_sub x y) <= (1 + u53) * (B2R x - B2R y).
  Proof.
    intros [Fx Bx] [Fy By] H. apply Rabs_le_inv in Bx, By.
    assert (E2 : bpow radix2 100 = 2 * bpow radix2 99) by (change 100%Z with (1 + 99)%Z; rewrite bpow_plus; reflexivity).
    assert (A : Rabs (B2R x - B2R y) <= bpow radix2 100) by (rewrite Rabs_pos_eq by lra; lra).
    destruct (sub_real x y 100 Fx Fy) as [F E]; [lia|exact A|].
    pose proof (plus53 x (Bopp y)) as P. rewrite B2R_Bopp in P. change (B2R x + - B2R y) with (B2R x - B2R y) in P. rewrite <- E in P.
    rewrite (Rabs_pos_eq (B2R x - B2R y)) in P by lra. apply Rabs_le_inv in P.
    assert (T : B2R (d_sub x y) <= bpow radix2 100).
    { apply Rle_trans with (Rabs (B2R (d_sub x y))); [apply Rle_abs|]. rewrite E. apply rnd_le_abs; [lia|exact A]. }
    split; [exact F|]. split; [|lra]. split; [|exact T].
    rewrite E, <- (round_0 radix2 (SpecFloat.fexp 53 1024) (round_mode mode_NE)). apply round_le; auto with typeclass_instances. lra.
  Qed.
  Lemma least_real l : forall a : double, is_finite a = true -> (forall x, In x l -> is_finite x = true) ->
    In (d_least a l) (a :: l) /\ forall x, In x (a :: l) -> B2R (d_least a l) <= B2R x.
  Proof.
    unfold d_least. induction l as [|y l IH]; intros a Fa Fl; cbn [fold_left].
    { split; [now left|]. intros x [<-|[]]. lra. }
    set (a' := if Bltb y a then y else a). assert (Fy : is_finite y = true) by (apply Fl; now left).
    assert (Fa' : is_finite a' = true) by (unfold a'; destruct (Bltb y a); auto).
    assert (La : B2R a' <= B2R a /\ B2R a' <= B2R y).
    { unfold a'. destruct (Bltb y a) eqn:E; [apply dltb in E; auto; lra|]. split; [lra|]. apply Rnot_lt_le. intros Q. apply dltb in Q; auto. congruence. }
    destruct (IH a' Fa') as [I1 I2]; [intros x Hx; apply Fl; now right|]. split.
    - destruct I1 as [I1|I1]; [|right; now right]. rewrite <- I1. unfold a'. destruct (Bltb y a); [right; now left|now left].
    - intros x Hx. pose proof (I2 a' (or_introl eq_refl)) as I0. destruct Hx as [<-|[<-|Hx]]; [lra|lra|]. apply I2. now right.
  Qed.

  Lemma border_real x : far (fst (xy x)) -> far (snd (xy x)) -> far (fst lb) -> far (snd lb) -> far (fst ub) -> far (snd ub) ->
    B2R (fst lb) <= B2R (fst (xy x)) <= B2R (fst ub) -> B2R (snd lb) <= B2R (snd (xy x)) <= B2R (snd ub) ->
    is_finite (f_border xy lb ub x) = true /\
    forall D, In D [B2R (fst (xy x)) - B2R (fst lb); B2R (fst ub) - B2R (fst (xy x)); B2R (snd (xy x)) - B2R (snd lb); B2R (snd ub) - B2R (snd (xy x))] ->
      B2R (f_border xy lb ub x) <= (1 + bpow radix2 (-24)) * ((1 + u53) * D) + bpow radix2 (-150).
  Proof.
    intros F1 F2 F3 F4 F5 F6 H1 H2. destruct (diff_real _ _ F1 F3) as (G1 & B1 & E1); [lra|]. destruct (diff_real _ _ F5 F1) as (G2 & B2 & E2); [lra|].
    destruct (diff_real _ _ F2 F4) as (G3 & B3 & E3); [lra|]. destruct (diff_real _ _ F6 F2) as (G4 & B4 & E4); [lra|]. unfold f_border.
    set (d1 := d_sub (fst (xy x)) (fst lb)) in *. set (d2 := d_sub (fst ub) (fst (xy x))) in *.
    set (d3 := d_sub (snd (xy x)) (snd lb)) in *. set (d4 := d_sub (snd ub) (snd (xy x))) in *.
    destruct (least_real [d2; d3; d4] d1 G1) as [I1 I2]. { intros y [<-|[<-|[<-|[]]]]; assumption. }
    set (d := d_least d1 [d2; d3; d4]) in *.
    assert (K : is_finite d = true /\ 0 <= B2R d <= bpow radix2 100). { destruct I1 as [<-|[<-|[<-|[<-|[]]]]]; auto. }
    destruct K as [Fd Bd]. destruct (narrow_real d Fd) as [Fn En].
    { rewrite Rabs_pos_eq by lra. apply Rle_trans with (bpow radix2 100); [lra|apply bpow_le; lia]. }
    split; [exact Fn|]. intros D HD.
    assert (M : B2R d <= (1 + u53) * D).
    { destruct HD as [<-|[<-|[<-|[<-|[]]]]].
      - specialize (I2 d1 ltac:(now left)). lra.
      - specialize (I2 d2 ltac:(right; now left)). lra.
      - specialize (I2 d3 ltac:(right; right; now left)). lra.
      - specialize (I2 d4 ltac:(right; right; right; now left)). lra. }
    pose proof (err24 (B2R d)) as Q. rewrite <- En in Q. rewrite (Rabs_pos_eq (B2R d)) in Q by lra. apply Rabs_le_inv in Q.
    assert (P : 0 < bpow radix2 (-24)) by apply bpow_gt_0.
    assert ((1 + bpow radix2 (-24)) * B2R d <= (1 + bpow radix2 (-24)) * ((1 + u53) * D)) by (apply Rmult_le_compat_l; lra). lra.
  Qed.

  (** A step is at most the distance to the border. *)
  Lemma step_border x d : bpow radix2 (-125) <= B2R minStep -> is_finite d = true -> Rabs (B2R d) <= bpow radix2 100 -> B2R minSafe <= B2R d ->
    far (fst (xy x)) -> far (snd (xy x)) -> far (fst lb) -> far (snd lb) -> far (fst ub) -> far (snd ub) ->
    B2R (fst lb) <= B2R (fst (xy x)) <= B2R (fst ub) -> B2R (snd lb) <= B2R (snd (xy x)) <= B2R (snd ub) ->
    forall D, In D [B2R (fst (xy x)) - B2R (fst lb); B2R (fst ub) - B2R (fst (xy x)); B2R (snd (xy x)) - B2R (snd lb); B2R (snd ub) - B2R (snd (xy x))] ->
      B2R (step x d) = B2R minStep \/ B2R (step x d) <= (1 + bpow radix2 (-23)) * D.
  Proof.
    intros Small Fd Bd Hd F1 F2 F3 F4 F5 F6 H1 H2 D HD. destruct (border_real x F1 F2 F3 F4 F5 F6 H1 H2) as [Fb Hb]. specialize (Hb D HD).
    assert (D0 : 0 <= D) by (destruct HD as [<-|[<-|[<-|[<-|[]]]]]; lra).
    assert (E2 : bpow radix2 101 = 2 * bpow radix2 100) by (change 101%Z with (1 + 100)%Z; rewrite bpow_plus; reflexivity).
    assert (A : Rabs (B2R d - B2R minSafe) <= bpow radix2 101).
    { rewrite E2. apply Rabs_le. apply Rabs_le_inv in Bd, Bsafe. lra. }
    destruct (ssub_real d minSafe Fd Fsafe A) as [Fe _]. unfold f_step. set (e := s_sub d minSafe) in *. set (b := f_border xy lb ub x) in *.
    assert (K : is_finite (s_min e b) = true /\ B2R (s_min e b) <= B2R b).
    { unfold s_min. destruct (Bltb b e) eqn:E; [split; [exact Fb|lra]|]. split; [exact Fe|]. apply Rnot_lt_le. intros Q. apply sltb in Q; auto. congruence. }
    destruct K as [Fm Lm]. unfold s_max. destruct (Bltb (s_min e b) minStep) eqn:E; [now left|]. right.
    assert (Q : B2R minStep <= B2R (s_min e b)). { apply Rnot_lt_le. intros Q. apply sltb in Q; auto. congruence. }
    assert (P : bpow radix2 (-150) = bpow radix2 (-25) * bpow radix2 (-125)) by (rewrite <- bpow_plus; reflexivity).
    rewrite P in Hb. rewrite u24_val, u53_val in Hb. change (bpow radix2 (-25)) with (/ 33554432) in Hb. change (bpow radix2 (-23)) with (/ 8388608). lra.
  Qed.

  Lemma obstacle_clear (h : R -> R) eps fuel init b r :
    (forall s t, 0 <= s <= B2R L -> 0 <= t <= B2R L -> h s - h t <= Rabs (s - t)) ->
    (forall (q : double) x d, is_finite q = true -> 0 <= B2R q <= 1 -> interp q = Ok x -> inside x = Ok true -> distance x = Ok d ->
       is_finite d = true /\ Rabs (B2R d) <= bpow radix2 100 /\ B2R d <= h (B2R q * B2R L) + eps) ->
    interp (d_div d_zero L) = Ok init -> f_state_valid inside distance minSafe init = Ok true ->
    f_path_valid xy interp inside distance lb ub minSafe minStep fuel init L = Ok (b, r) ->
    is_finite r = true /\ 0 <= B2R r <= 1 /\ (b = true -> B2R r = 1) /\
    forall s, 0 <= s <= B2R r * B2R L -> B2R minSafe - B2R minStep - eps - bpow radix2 (-21) * B2R L <= h s.
  Proof.
    intros Hh Hd Hi Hv H.
    assert (Rep : reported). { intros q x d Q1 Q2 Q3 Q4 Q5. destruct (Hd q x d Q1 Q2 Q3 Q4 Q5) as (A1 & A2 & _). auto. }
    refine (path_clear Rep h eps (B2R minSafe) (fun x => match distance x with Ok d => B2R d | _ => 0 end) Hh _ fuel init b r Hi Hv H).
    intros q x d Q1 Q2 Q3 Q4 Q5 Q6. rewrite Q5. destruct (Hd q x d Q1 Q2 Q3 Q4 Q5) as (A1 & A2 & A3). split; [lra|].
    destruct (step_real x d A1 A2 Q6) as (_ & _ & [C|C]); [now left|]. right. rewrite u24_val in C. change (bpow radix2 (-23)) with (/ 8388608). lra.
  Qed.

  Lemma border_clear (px py : R -> R) eps fuel init b r : bpow radix2 (-125) <= B2R minStep ->
    far (fst lb) -> far (snd lb) -> far (fst ub) -> far (snd ub) ->
    (forall s t, 0 <= s <= B2R L -> 0 <= t <= B2R L -> Rabs (px s - px t) <= Rabs (s - t) /\ Rabs (py s - py t) <= Rabs (s - t)) ->
    (forall (q : double) x, is_finite q = true -> 0 <= B2R q <= 1 -> interp q = Ok x -> inside x = Ok true ->
       is_finite (fst (xy x)) = true /\ is_finite (snd (xy x)) = true /\
       B2R (fst lb) <= B2R (fst (xy x)) <= B2R (fst ub) /\ B2R (snd lb) <= B2R (snd (xy x)) <= B2R (snd ub) /\
       Rabs (B2R (fst (xy x)) - px (B2R q * B2R L)) <= eps /\ Rabs (B2R (snd (xy x)) - py (B2R q * B2R L)) <= eps) ->
    reported -> interp (d_div d_zero L) = Ok init -> f_state_valid inside distance minSafe init = Ok true ->
    f_path_valid xy interp inside distance lb ub minSafe minStep fuel init L = Ok (b, r) ->
    forall s, 0 <= s <= B2R r * B2R L ->
      let slack := B2R minStep + eps + bpow radix2 (-21) * B2R L in
      B2R (fst lb) - slack <= px s <= B2R (fst ub) + slack /\ B2R (snd lb) - slack <= py s <= B2R (snd ub) + slack.
  Proof.
    intros Small F3 F4 F5 F6 Hp Hx Rep Hi Hv H.
    assert (Far : forall (x y z : double), far x -> far z -> is_finite y = true -> B2R x <= B2R y <= B2R z -> far y).
    { intros x y z [_ A] [_ B] F [C D]. split; [exact F|]. apply Rabs_le_inv in A, B. apply Rabs_le. lra. }
    assert (Gen : forall (h : R -> R) (m : St -> R), (forall s t, h s - h t <= Rabs (px s - px t) \/ h s - h t <= Rabs (py s - py t)) ->
      (forall (q : double) x, is_finite q = true -> 0 <= B2R q <= 1 -> interp q = Ok x -> inside x = Ok true -> m x <= h (B2R q * B2R L) + eps) ->
      (forall x, In (m x) [B2R (fst (xy x)) - B2R (fst lb); B2R (fst ub) - B2R (fst (xy x)); B2R (snd (xy x)) - B2R (snd lb); B2R (snd ub) - B2R (snd (xy x))]) ->
      forall s, 0 <= s <= B2R r * B2R L -> 0 - B2R minStep - eps - bpow radix2 (-21) * B2R L <= h s).
    { intros h m Hh He Hm. refine (proj2 (proj2 (proj2 (path_clear Rep h eps 0 m _ _ fuel init b r Hi Hv H)))).
      - intros s t Hs Ht. destruct (Hp s t Hs Ht) as [P1 P2]. destruct (Hh s t); lra.
      - intros q x d Q1 Q2 Q3 Q4 Q5 Q6. destruct (Rep q x d Q1 Q2 Q3 Q4 Q5) as [Fd Bd]. destruct (Hx q x Q1 Q2 Q3 Q4) as (X1 & X2 & X3 & X4 & _).
        specialize (He q x Q1 Q2 Q3 Q4). specialize (Hm x). split.
        + split; [|exact He]. destruct Hm as [<-|[<-|[<-|[<-|[]]]]]; lra.
        + rewrite Rminus_0_r. exact (step_border x d Small Fd Bd Q6 (Far _ _ _ F3 F5 X1 X3) (Far _ _ _ F4 F6 X2 X4) F3 F4 F5 F6 X3 X4 (m x) Hm). }
    intros s Hs. cbv zeta.
    assert (G1 := Gen (fun s => px s - B2R (fst lb)) (fun x => B2R (fst (xy x)) - B2R (fst lb))).
    assert (G2 := Gen (fun s => B2R (fst ub) - px s) (fun x => B2R (fst ub) - B2R (fst (xy x)))).
    assert (G3 := Gen (fun s => py s - B2R (snd lb)) (fun x => B2R (snd (xy x)) - B2R (snd lb))).
    assert (G4 := Gen (fun s => B2R (snd ub) - py s) (fun x => B2R (snd ub) - B2R (snd (xy x)))). cbv beta in *. clear Gen.
    assert (A1 : 0 - B2R minStep - eps - bpow radix2 (-21) * B2R L <= px s - B2R (fst lb)).
    { apply G1; [| |intros; now left|exact Hs].
      - intros u v. left. eapply Rle_trans; [|apply Rle_abs]. lra.
      - intros q x Q1 Q2 Q3 Q4. destruct (Hx q x Q1 Q2 Q3 Q4) as (_ & _ & _ & _ & X & _). apply Rabs_le_inv in X. lra. }
    assert (A2 : 0 - B2R minStep - eps - bpow radix2 (-21) * B2R L <= B2R (fst ub) - px s).
    { apply G2; [| |intros; right; now left|exact Hs].
      - intros u v. left. rewrite Rabs_minus_sym. eapply Rle_trans; [|apply Rle_abs]. lra.
      - intros q x Q1 Q2 Q3 Q4. destruct (Hx q x Q1 Q2 Q3 Q4) as (_ & _ & _ & _ & X & _). apply Rabs_le_inv in X. lra. }
    assert (A3 : 0 - B2R minStep - eps - bpow radix2 (-21) * B2R L <= py s - B2R (snd lb)).
    { apply G3; [| |intros; right; right; now left|exact Hs].
      - intros u v. right. eapply Rle_trans; [|apply Rle_abs]. lra.
      - intros q x Q1 Q2 Q3 Q4. destruct (Hx q x Q1 Q2 Q3 Q4) as (_ & _ & _ & _ & _ & X). apply Rabs_le_inv in X. lra. }
    assert (A4 : 0 - B2R minStep - eps - bpow radix2 (-21) * B2R L <= B2R (snd ub) - py s).
    { apply G4; [| |intros; right; right; right; now left|exact Hs].
      - intros u v. right. rewrite Rabs_minus_sym. eapply Rle_trans; [|apply Rle_abs]. lra.
      - intros q x Q1 Q2 Q3 Q4. destruct (Hx q x Q1 Q2 Q3 Q4) as (_ & _ & _ & _ & _ & X). apply Rabs_le_inv in X. lra. }
    lra.
  Qed.

  (** Termination: while the length is below 2^52 least steps, a round adds at least a quarter of it. *)
  Section End.
    Context (HL : B2R L <= bpow radix2 52 * B2R minStep).
    Context (Def : forall r : double, is_finite r = true -> 0 <= B2R r <= 1 -> exists x, interp r = Ok x /\
      (inside x = Ok false \/ exists d, inside x = Ok true /\ distance x = Ok d /\ is_finite d = true /\ Rabs (B2R d) <= bpow radix2 100)).

    Lemma next_grows (l : double) (st : single) : is_finite l = true -> is_finite st = true -> 0 <= B2R l <= B2R L -> B2R minStep <= B2R st <= bpow radix2 101 ->
      B2R l + B2R minStep / 4 <= B2R (d_add l (widen st)).
    Proof.
      intros Fl Fs Hl Hs. destruct (widen_real st Fs) as [Fw Ew]. destruct (widen_real minStep Fstep) as [Fm Em].
      assert (E2 : bpow radix2 101 = 2 * bpow radix2 100) by (change 101%Z with (1 + 100)%Z; rewrite bpow_plus; reflexivity).
      assert (E4 : bpow radix2 102 = 4 * bpow radix2 100) by (change 102%Z with (2 + 100)%Z; rewrite bpow_plus; reflexivity).
      destruct (add_real l (widen st) 102 Fl Fw) as [F E]; [lia|rewrite Ew; apply Rabs_le; lra|].
      destruct (next_real l minStep Fl Fstep) as (Fn & _ & Dn); [lra|lra|].
      destruct (add_real l (widen minStep) 102 Fl Fm) as [_ E']; [lia|rewrite Em; apply Rabs_le; lra|].
      assert (M : B2R (d_add l (widen minStep)) <= B2R (d_add l (widen st))).
      { rewrite E, E'. apply round_le; auto with typeclass_instances. rewrite Ew, Em. lra. }
      apply Rabs_le_inv in Dn. rewrite u53_val in Dn. change (bpow radix2 52) with 4503599627370496 in HL. lra.
    Qed.

    Lemma loop_ends k : forall (l lv : double), is_finite l = true -> 0 <= B2R l -> B2R L - B2R l <= INR k * (B2R minStep / 4) ->
      exists b r, forall n, f_loop xy interp inside distance lb ub minSafe minStep (n + k) L l lv = Ok (b, r).
    Proof.
      induction k as [|k IH]; intros l lv Fl Pl Hk.
      - cbn in Hk. assert (E : Bltb l L = false). { destruct (Bltb l L) eqn:E; [|reflexivity]. apply dltb in E; auto. lra. }
        exists true, (s_of 1 0). intros n. destruct (n + 0)%nat; cbn [f_loop]; rewrite E; reflexivity.
      - destruct (Bltb l L) eqn:E.
        2:{ exists true, (s_of 1 0). intros n. destruct (n + S k)%nat; cbn [f_loop]; rewrite E; reflexivity. }
        pose proof E as E'. apply dltb in E'; auto. destruct (ratio_real l Fl) as (Fr & Hr & _); [lra|].
        destruct (Def _ Fr Hr) as (x & Hx & Hi). destruct Hi as [Hi|(d & Hi & Hdx & Fd & Bd)].
        { exists false, (narrow (d_div lv L)). intros n. rewrite Nat.add_succ_r. cbn [f_loop]. rewrite E, Hx. cbn [bind]. unfold f_state_valid. now rewrite Hi. }
        destruct (Bleb minSafe d) eqn:V.
        2:{ exists false, (narrow (d_div lv L)). intros n. rewrite Nat.add_succ_r. cbn [f_loop]. rewrite E, Hx. cbn [bind]. unfold f_state_valid.
            rewrite Hi. cbn [bind]. rewrite Hdx. cbn [bind]. now rewrite V. }
        pose proof V as V'. apply sleb in V'; auto. destruct (step_real x d Fd Bd V') as (Fs & Bs & _).
        destruct (next_real l (step x d) Fl Fs) as (Fn & Ln & _); [lra|lra|].
        pose proof (next_grows l (step x d) Fl Fs ltac:(lra) Bs) as G.
        destruct (IH (d_add l (widen (step x d))) l Fn) as (b & r & R); [lra|rewrite S_INR in Hk; lra|].
        exists b, r. intros n. rewrite Nat.add_succ_r. cbn [f_loop]. rewrite E, Hx. cbn [bind]. unfold f_state_valid. rewrite Hi. cbn [bind]. rewrite Hdx. cbn [bind].
        rewrite V. cbn [negb]. apply R.
    Qed.

    Lemma path_ends init : exists b r, forall fuel, 4 * B2R L <= INR fuel * B2R minStep ->
      f_path_valid xy interp inside distance lb ub minSafe minStep fuel init L = Ok (b, r).
    Proof.
      set (k := Z.to_nat (up (4 * B2R L / B2R minStep))).
      assert (Q : 0 < 4 * B2R L / B2R minStep) by (apply Rmult_lt_0_compat; [lra|apply Rinv_0_lt_compat; lra]).
      destruct (archimed (4 * B2R L / B2R minStep)) as [U1 U2].
      assert (Uk : INR k = IZR (up (4 * B2R L / B2R minStep))).
      { unfold k. rewrite INR_IZR_INZ, Z2Nat.id; [reflexivity|]. apply le_IZR. lra. }
      assert (Qm : forall n, 4 * B2R L <= INR n * B2R minStep -> B2R L - B2R d_zero <= INR n * (B2R minStep / 4)) by (intros n; change (B2R d_zero) with 0; lra).
      assert (Lk : 4 * B2R L <= INR k * B2R minStep).
      { rewrite Uk. apply Rmult_le_reg_r with (/ B2R minStep); [apply Rinv_0_lt_compat; lra|]. rewrite (Rmult_assoc (IZR (up _))), (Rinv_r (B2R minStep)) by lra. unfold Rdiv in *. lra. }
      destruct (loop_ends k d_zero d_zero eq_refl) as (b & r & Hr); [change (B2R d_zero) with 0; lra|now apply Qm|].
      exists b, r. intros fuel Hf. unfold f_path_valid. rewrite not_zero.
      destruct (loop_ends fuel d_zero d_zero eq_refl) as (b' & r' & Hr'); [change (B2R d_zero) with 0; lra|now apply Qm|].
      pose proof (Hr' k) as A. rewrite Nat.add_comm, Hr in A. injection A as <- <-. apply (Hr' 0%nat).
    Qed.
  End End.
End Proofs.
