(** Property C137, sampling the path of Hybrid A* in double precision. *)
From Coq Require Import Reals ZArith Lra Lia.
From Flocq Require Import Core BinarySingleNaN.
From Verif Require Import Base CoordsFloat_model StraightFloat_model CoordsFloat_proofs StraightFloat_proofs ValidatorFloat_proofs CellFloat_proofs CompositeFloat_spec RsFloat_proofs RsFloat_props PathSampleFloat_model PathSampleFloat_spec PathSampleFloat_proofs.
Local Open Scope R_scope.

(** Sampling ends and is defined; the samples begin at the start and increase, about two steps apart at most, up to the end but for one and a
    half steps; what is marked is an end or a cusp; there are not more samples than steps. *)
Theorem C137_samples :
  forall fuel total step cusps, sampling total step cusps -> 2 * B2R total < INR fuel * B2R step ->
  exists z tl marks, d_sample fuel total step cusps = Ok (z :: tl, marks) /\ B2R z = 0 /\ In 0%nat marks /\ Forall is_ratio (z :: tl) /\
    (forall before a b after, z :: tl = before ++ a :: b :: after -> B2R a < B2R b /\ (B2R b - B2R a) * B2R total < (2 + bpow radix2 (-8)) * B2R step) /\
    B2R total - B2R (last (z :: tl) z) * B2R total < (3 / 2 + bpow radix2 (-8)) * B2R step /\
    (forall i, In i marks -> exists c, nth_error (z :: tl) i = Some c /\ special cusps c) /\ INR (length tl) * ((1 - bpow radix2 (-12)) * B2R step) <= B2R total.
Proof. exact samples. Qed.
Print Assumptions C137_samples.

(** Cusps more than a step apart are sampled and marked, up to half a step after the last place, if none is half-way between two places. *)
Theorem C137_cusps_partial :
  forall fuel total step cusps rs marks, sampling total step cusps -> d_sample fuel total step cusps = Ok (rs, marks) ->
  (forall c c', special cusps c -> special cusps c' -> B2R c < B2R c' -> B2R c * B2R total + (1 + bpow radix2 (-8)) * B2R step <= B2R c' * B2R total) ->
  (forall j c, special cusps c -> (j < length rs)%nat -> bpow radix2 (-9) * B2R step < Rabs (B2R c * B2R total - (B2R (added_up step j) + B2R step / 2))) ->
  let last := B2R (added_up step (Nat.pred (length rs))) in last <= B2R total < last + (1 + bpow radix2 (-12)) * B2R step /\
  forall c, special cusps c -> B2R c * B2R total <= last + B2R step / 2 -> exists j r, In j marks /\ nth_error rs j = Some r /\ B2R r = B2R c.
Proof. exact kept_cusps. Qed.
Print Assumptions C137_cusps_partial.

(** The literal 0.1, the double 0.25000000000000006 and three quarters. *)
Definition tenth : double := d_of 3602879701896397 (-55).
Definition past_quarter : double := d_of 4503599627370497 (-54).
Definition three_quarters : double := d_of 3 (-2).

Lemma tenth_size : is_finite tenth = true /\ / 16 < B2R tenth < / 8.
Proof. destruct (literal 3602879701896397 (-55) ltac:(lia) ltac:(lia)) as [F _]. split; [exact F|]. destruct (literal 1 (-4) ltac:(lia) ltac:(lia)) as [F1 _]. destruct (literal 1 (-3) ltac:(lia) ltac:(lia)) as [F2 _].
  assert (V1 : B2R (d_of 1 (-4)) = / 16) by (change (F2R (Float radix2 4503599627370496 (-56)) = / 16); unfold F2R; cbn; lra). assert (V2 : B2R (d_of 1 (-3)) = / 8) by (change (F2R (Float radix2 4503599627370496 (-55)) = / 8); unfold F2R; cbn; lra).
  rewrite <- V1, <- V2. split; apply dltb; auto; vm_compute; reflexivity. Qed.
Lemma tenth_range : bpow radix2 (-900) <= B2R tenth <= bpow radix2 900.
Proof. destruct tenth_size as [_ B]. assert (bpow radix2 (-900) <= / 16) by (change (/ 16) with (bpow radix2 (-4)); apply bpow_le; lia). assert (1 <= bpow radix2 900) by (change 1 with (bpow radix2 0); apply bpow_le; lia). lra. Qed.
Lemma forty_large : 1000 <= bpow radix2 40. Proof. apply Rle_trans with (bpow radix2 10); [cbn; lra|apply bpow_le; lia]. Qed.

Lemma past_quarter_size : is_finite past_quarter = true /\ / 4 < B2R past_quarter < / 4 + / 1000.
Proof. destruct (literal 4503599627370497 (-54) ltac:(lia) ltac:(lia)) as [F _]. split; [exact F|]. change (B2R past_quarter) with (F2R (Float radix2 4503599627370497 (-54))). unfold F2R. cbn. lra. Qed.
Lemma three_quarters_size : is_finite three_quarters = true /\ B2R three_quarters = 3 / 4.
Proof. split; [reflexivity|]. change (F2R (Float radix2 6755399441055744 (-53)) = 3 / 4). unfold F2R. cbn. lra. Qed.

(** A path of the length one with a cusp just after its first quarter and another at three quarters. *)
Example C137_sampling : sampling d_one tenth [past_quarter; three_quarters].
Proof.
  destruct one_real as [F1 E1]. destruct tenth_size as [Ft Bt]. pose proof tenth_range. pose proof forty_large. split; [exact F1|]. split; [exact Ft|]. split; [assumption|]. split; [rewrite E1; split; [lra|]; apply Rle_trans with (1000 * B2R tenth); [lra|]; apply Rmult_le_compat_r; lra|]. split; [|reflexivity].
  destruct past_quarter_size as [Fq Bq]. destruct three_quarters_size as [Fh Bh]. intros c [<- |[<- |[]]]; (split; [assumption|lra]).
Qed.
Lemma demo_special c : special [past_quarter; three_quarters] c -> B2R c = 0 \/ B2R c = 1 \/ B2R c = B2R past_quarter \/ B2R c = 3 / 4.
Proof. destruct three_quarters_size as [_ Bh]. intros (_ & [H|[H|(x & [<- |[<- |[]]] & H)]]); auto. rewrite Bh in H. auto. Qed.

(** A cusp that is half-way between two places may be in neither window by rounding; it hides all later ones and the end, although they are far
    apart. *)
Theorem C137_cusps_refuted :
  ~ (forall fuel total step cusps rs marks, sampling total step cusps -> d_sample fuel total step cusps = Ok (rs, marks) ->
     (forall c c', special cusps c -> special cusps c' -> B2R c < B2R c' -> B2R c * B2R total + 2 * B2R step <= B2R c' * B2R total) ->
     forall c, In c cusps -> B2R c * B2R total <= B2R total - 2 * B2R step -> exists j r, In j marks /\ nth_error rs j = Some r /\ B2R r = B2R c).
Proof.
  intros H. destruct one_real as [F1 E1]. destruct tenth_size as [Ft Bt]. destruct past_quarter_size as [Fq Bq]. destruct three_quarters_size as [Fh Bh].
  destruct (samples 40 d_one tenth _ C137_sampling) as (z & tl & marks & E & Ez & _). { rewrite E1. replace (INR 40) with 40 by (cbn; lra). lra. }
  assert (M : match d_sample 40 d_one tenth [past_quarter; three_quarters] with Ok (_, marks) => marks = [0%nat] | _ => False end) by (vm_compute; reflexivity). rewrite E in M. subst marks.
  destruct (H _ _ _ _ _ _ C137_sampling E) with (c := three_quarters) as (j & r & [<- |[]] & N & V).
  - intros c c' S1 S2 L. apply demo_special in S1, S2. rewrite E1, !Rmult_1_r. intuition lra.
  - right. left. reflexivity.
  - rewrite E1. lra.
  - cbn [nth_error] in N. assert (r = z) as -> by congruence. lra.
Qed.
Print Assumptions C137_cusps_refuted.

(** A path of eight steps with a cusp at three quarters, which is kept with the two ends. *)
Example C137_cusps_met : sampling (d_of 8 0) d_one [three_quarters] /\
  (forall c c', special [three_quarters] c -> special [three_quarters] c' -> B2R c < B2R c' -> B2R c * B2R (d_of 8 0) + (1 + bpow radix2 (-8)) * B2R d_one <= B2R c' * B2R (d_of 8 0)) /\
  exists rs, d_sample 40 (d_of 8 0) d_one [three_quarters] = Ok (rs, [0; 6; 8]%nat) /\ length rs = 9%nat /\
  (forall j c, special [three_quarters] c -> (j < length rs)%nat -> bpow radix2 (-9) * B2R d_one < Rabs (B2R c * B2R (d_of 8 0) - (B2R (added_up d_one j) + B2R d_one / 2))).
Proof.
  destruct one_real as [F1 E1]. destruct (int_double 8 ltac:(lia)) as [F8 E8]. destruct three_quarters_size as [Fh Bh]. pose proof forty_large.
  assert (SP : sampling (d_of 8 0) d_one [three_quarters]). { split; [exact F8|]. split; [exact F1|]. split; [rewrite E1; split; change 1 with (bpow radix2 0); apply bpow_le; lia|]. split; [rewrite E1, E8; lra|]. split; [|reflexivity]. intros c [<- |[]]. split; [assumption|lra]. }
  assert (V : forall c, special [three_quarters] c -> B2R c = 0 \/ B2R c = 1 \/ B2R c = 3 / 4). { intros c (_ & [Q|[Q|(x & [<- |[]] & Q)]]); auto. rewrite Bh in Q. auto. }
  assert (E256 : bpow radix2 (-8) = / 256) by (cbn; lra). assert (E512 : bpow radix2 (-9) = / 512) by (cbn; lra).
  split; [exact SP|]. split; [intros c c' S1 S2 L; apply V in S1, S2; rewrite E1, E8, E256; intuition lra|].
  destruct (samples 40 (d_of 8 0) d_one _ SP) as (z & tl & marks & E & _). { rewrite E1, E8. replace (INR 40) with 40 by (cbn; lra). lra. }
  assert (M : match d_sample 40 (d_of 8 0) d_one [three_quarters] with Ok (rs, marks) => length rs = 9%nat /\ marks = [0; 6; 8]%nat | _ => False end) by (vm_compute; split; reflexivity). rewrite E in M. destruct M as [M1 ->].
  exists (z :: tl). split; [exact E|]. split; [exact M1|]. intros j c Sc Hj. rewrite M1 in Hj. apply V in Sc. rewrite E1, E8, E512.
  assert (P : B2R (added_up d_one j) = IZR (Z.of_nat j)). { destruct (int_double (Z.of_nat j) ltac:(lia)) as [_ Ej]. rewrite <- Ej. f_equal. apply B2SF_inj. do 9 (destruct j as [|j]; [vm_compute; reflexivity|]). lia. }
  rewrite P. do 9 (destruct j as [|j]; [cbn [Z.of_nat Pos.of_succ_nat Pos.succ]; unfold Rabs; destruct (Rcase_abs _); intuition lra|]). lia.
Qed.

(** The step 0.1 and the length that is fifteen times this step: the places added up pass the end, which is missed. *)
Theorem C137_end_refuted :
  ~ (forall fuel total step rs marks k, sampling total step [] -> (0 < k < 100)%Z -> total = d_mul (d_of k 0) step -> d_sample fuel total step [] = Ok (rs, marks) ->
     exists r, In r rs /\ B2R r = 1).
Proof.
  intros H. destruct one_real as [F1 E1]. destruct tenth_size as [Ft Bt]. pose proof tenth_range. pose proof forty_large. set (total := d_mul (d_of 15 0) tenth).
  assert (FT : is_finite total = true) by (vm_compute; reflexivity). assert (BT : 1 <= B2R total <= 2). { destruct (int_double 1 ltac:(lia)) as [Fo Eo]. destruct (int_double 2 ltac:(lia)) as [Fw Ew]. split; [rewrite <- Eo|rewrite <- Ew]; apply dleb; auto; vm_compute; reflexivity. }
  assert (SP : sampling total tenth []). { split; [exact FT|]. split; [exact Ft|]. split; [assumption|]. split; [split; [lra|]; apply Rle_trans with (1000 * B2R tenth); [lra|]; apply Rmult_le_compat_r; lra|]. split; [intros c []|reflexivity]. }
  destruct (samples 80 total tenth _ SP) as (z & tl & marks & E & Ez & _ & RR & _). { replace (INR 80) with 80 by (cbn; lra). lra. }
  destruct (H _ _ _ _ _ 15%Z SP ltac:(lia) eq_refl E) as (r & I & V).
  assert (M : match d_sample 80 total tenth [] with Ok (rs, _) => forallb (fun r => Bltb r d_one) rs = true | _ => False end) by (vm_compute; reflexivity). rewrite E, forallb_forall in M. specialize (M r I). rewrite Forall_forall in RR. destruct (RR r I) as [Fr _]. apply dltb in M; auto. lra.
Qed.
Print Assumptions C137_end_refuted.

(** The length 2^54 and the step one: the places added up never pass 2^53, so sampling never ends. *)
Theorem C137_terminates_refuted :
  ~ (forall total step, is_finite total = true -> is_finite step = true -> 0 < B2R step -> 0 < B2R total -> exists fuel, d_sample fuel total step [] <> NoFuel).
Proof.
  intros H. destruct one_real as [F1 E1]. destruct (H (d_of 1 54) d_one) as [fuel N]; [vm_compute; reflexivity|exact F1|lra| |apply N; exact (endless fuel)].
  change 0 with (B2R d_zero). apply dltb; [reflexivity|vm_compute; reflexivity|vm_compute; reflexivity].
Qed.
Print Assumptions C137_terminates_refuted.
