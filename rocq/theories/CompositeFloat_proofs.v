(** Composite paths in double precision. *)
From Coq Require Import Reals ZArith Lra Lia.
From Flocq Require Import Core BinarySingleNaN.
From Verif Require Import Base RealBase CoordsFloat_model CoordsFloat_proofs StraightFloat_model StraightFloat_proofs ValidatorFloat_proofs Bicycle_model Composite_model Composite_spec
  CompositeFloat_model CompositeFloat_spec NonHolFloat_proofs.
Local Open Scope R_scope.
#[local] Existing Instance prec53.
#[local] Existing Instance emax1024.
#[local] Existing Instance vexp53.
#[local] Existing Instance vrndne.

(** ** Sums that are numbers *)

Lemma add_finite (x y : double) : is_finite (d_add x y) = true -> is_finite x = true /\ is_finite y = true /\ B2R (d_add x y) = rnd53 (B2R x + B2R y).
Proof.
  intros F. assert (A : is_finite x = true /\ is_finite y = true).
  { destruct x as [?|[]| |? ? ? ?], y as [?|[]| |? ? ? ?]; try discriminate; auto. }
  destruct A as [Fx Fy]. split; [exact Fx|]. split; [exact Fy|]. pose proof (Bplus_correct 53 1024 prec53 emax1024 mode_NE x y Fx Fy) as C.
  destruct (Rlt_bool _ _) in C.
  - destruct C as (C & _). exact C.
  - exfalso. destruct C as [C _]. apply (f_equal is_finite_SF) in C. rewrite is_finite_SF_B2SF in C. change (Bplus mode_NE x y) with (d_add x y) in C. rewrite F in C. discriminate.
Qed.
Lemma number_format (x : double) : generic_format radix2 (SpecFloat.fexp 53 1024) (B2R x).
Proof. apply generic_format_B2R. Qed.
Lemma add_grows (x y : double) : is_finite (d_add x y) = true -> 0 <= B2R y -> B2R x <= B2R (d_add x y).
Proof. intros F H. destruct (add_finite x y F) as (_ & _ & ->). apply round_ge_generic; auto with typeclass_instances; [apply number_format|lra]. Qed.
Lemma zero_value : B2R d_zero = 0 /\ is_finite d_zero = true.
Proof. split; reflexivity. Qed.
Lemma one_value : B2R d_one = 1 /\ is_finite d_one = true.
Proof. destruct one_real as [F E]. split; assumption. Qed.

Lemma below_one (x : double) : is_finite x = true -> B2R x < 1 -> B2R x <= 1 - bpow radix2 (-53).
Proof.
  intros F H. assert (E : pred radix2 (SpecFloat.fexp 53 1024) 1 = 1 - bpow radix2 (-53)).
  { rewrite pred_eq_pos by lra. unfold pred_pos. assert (M1 : mag radix2 1 = 1%Z :> Z) by (apply mag_1). rewrite M1. change (1 - 1)%Z with 0%Z. rewrite Req_bool_true by reflexivity. reflexivity. }
  rewrite <- E. apply pred_ge_gt; auto with typeclass_instances; [apply number_format|]. change 1 with (bpow radix2 0). apply format53_pow. lia.
Qed.

(** A ratio below one of a length that is not tiny is below the length. *)
Lemma strictly_below (r t : double) : is_finite r = true -> 0 <= B2R r < 1 -> bpow radix2 (-1000) <= B2R t -> rnd53 (B2R r * B2R t) < B2R t.
Proof.
  intros Fr Hr Ht. pose proof (bpow_gt_0 radix2 (-1000)) as P0. set (T := B2R t) in *. pose proof (below_one r Fr (proj2 Hr)) as B.
  set (fx := SpecFloat.fexp 53 1024) in *. assert (Ft : generic_format radix2 fx T) by apply number_format.
  assert (Pl : pred radix2 fx T < T) by (apply pred_lt_id; lra).
  assert (Fp : generic_format radix2 fx (pred radix2 fx T)) by (apply generic_format_pred; auto with typeclass_instances).
  apply Rle_lt_trans with (pred radix2 fx T); [|exact Pl]. change (round radix2 fx (Znearest (fun x => negb (Z.even x))) (B2R r * T) <= pred radix2 fx T). apply round_N_le_midp; auto with typeclass_instances.
  rewrite succ_pred by (auto with typeclass_instances).
  apply Rle_lt_trans with (T - bpow radix2 (-53) * T). { assert (B2R r * T <= (1 - bpow radix2 (-53)) * T) by (apply Rmult_le_compat_r; lra). lra. }
  assert (K : T - pred radix2 fx T < bpow radix2 (-52) * T).
  { rewrite pred_eq_pos by lra. unfold pred_pos. destruct (mag radix2 T) as (e & He). cbn [mag_val]. specialize (He ltac:(lra)). rewrite Rabs_pos_eq in He by lra.
    assert (Ge : (-1000 < e)%Z). { apply (lt_bpow radix2). lra. }
    assert (E1 : fx e = (e - 53)%Z). { unfold fx. change (SpecFloat.fexp 53 1024) with (FLT_exp (-1074) 53). unfold FLT_exp. lia. }
    assert (E2 : fx (e - 1)%Z = (e - 54)%Z). { unfold fx. change (SpecFloat.fexp 53 1024) with (FLT_exp (-1074) 53). unfold FLT_exp. lia. }
    destruct (Req_bool_spec T (bpow radix2 (e - 1))) as [X|X].
    - rewrite E2. replace (T - (T - bpow radix2 (e - 54))) with (bpow radix2 (e - 54)) by ring. rewrite X, <- bpow_plus. apply bpow_lt. lia.
    - replace (T - (T - ulp radix2 fx T)) with (ulp radix2 fx T) by ring. rewrite ulp_neq_0 by lra. unfold cexp. rewrite (mag_unique radix2 T e) by (rewrite Rabs_pos_eq by lra; exact He). rewrite E1.
      replace (e - 53)%Z with (-52 + (e - 1))%Z by ring. rewrite bpow_plus. apply Rmult_lt_compat_l; [apply bpow_gt_0|lra]. }
  assert (bpow radix2 (-52) * T = 2 * (bpow radix2 (-53) * T)). { change (-52)%Z with (1 + -53)%Z. rewrite bpow_plus. change (bpow radix2 1) with 2. ring. }
  lra.
Qed.

Section Composite.
Variables State Part : Type.
Variable part_length : Part -> double.
Variable part_final : Part -> State.

Notation len p := (B2R (part_length p)).
Definition lengthy (p : Part) : Prop := is_finite (part_length p) = true /\ 0 <= len p.

(** ** The segments *)

Fixpoint segments (s : double) (parts : list Part) : list (d_segment Part) :=
  match parts with [] => [] | p :: r => DSegment Part s (d_add s (part_length p)) p :: segments (d_add s (part_length p)) r end.
Definition sum_from (s : double) (parts : list Part) : double := fold_left (fun a p => d_add a (part_length p)) parts s.

Lemma push_all parts c : dk_paths _ _ (fold_left (dk_push State Part part_length part_final) parts c) = dk_paths _ _ c ++ segments (dk_length _ _ c) parts /\
  dk_length _ _ (fold_left (dk_push State Part part_length part_final) parts c) = sum_from (dk_length _ _ c) parts.
Proof.
  revert c. induction parts as [|p r IH]; intros c; cbn [fold_left segments]; [rewrite app_nil_r; split; reflexivity|].
  destruct (IH (dk_push State Part part_length part_final c p)) as [E1 E2]. rewrite E1, E2. unfold dk_push. cbn [dk_paths dk_length]. rewrite <- app_assoc. split; reflexivity.
Qed.
Lemma composed dflt parts : dk_paths _ _ (d_compose State Part part_length part_final dflt parts) = segments d_zero parts /\
  dk_length _ _ (d_compose State Part part_length part_final dflt parts) = sum_from d_zero parts.
Proof. unfold d_compose. destruct (push_all parts (dk_new State Part dflt)) as [E1 E2]. rewrite E1, E2. split; reflexivity. Qed.
Lemma final_composed dflt parts p : dk_final _ _ (d_compose State Part part_length part_final dflt (parts ++ [p])) = part_final p.
Proof. unfold d_compose. rewrite fold_left_app. reflexivity. Qed.
Lemma init_composed dflt parts : dk_init _ _ (d_compose State Part part_length part_final dflt parts) = dflt.
Proof. unfold d_compose. change dflt with (dk_init _ _ (dk_new State Part dflt)) at 2. generalize (dk_new State Part dflt). induction parts as [|p r IH]; intros c; [reflexivity|]. cbn [fold_left]. now rewrite IH. Qed.
Lemma segments_length s parts : length (segments s parts) = length parts.
Proof. revert s. induction parts as [|p r IH]; intros s; cbn; auto. Qed.
Lemma sum_app s a b : sum_from s (a ++ b) = sum_from (sum_from s a) b.
Proof. apply fold_left_app. Qed.
Lemma segments_app s a b : segments s (a ++ b) = segments s a ++ segments (sum_from s a) b.
Proof. revert s. induction a as [|p r IH]; intros s; [reflexivity|]. cbn [app segments]. rewrite IH. reflexivity. Qed.

Lemma sum_finite s parts : (forall p, In p parts -> lengthy p) -> is_finite (sum_from s parts) = true -> is_finite s = true /\ B2R s <= B2R (sum_from s parts).
Proof.
  revert s. induction parts as [|p r IH]; intros s H F; cbn [sum_from fold_left] in *; [split; [exact F|lra]|].
  destruct (IH (d_add s (part_length p)) (fun q I => H q (or_intror I)) F) as [F1 L]. destruct (H p (or_introl eq_refl)) as [_ P].
  destruct (add_finite _ _ F1) as (Fs & _ & _). pose proof (add_grows _ _ F1 P). split; [exact Fs|]. change (fold_left _ r _) with (sum_from (d_add s (part_length p)) r). lra.
Qed.
Lemma finals_above s parts (d : double) : (forall p, In p parts -> lengthy p) -> is_finite (sum_from s parts) = true -> is_finite d = true -> B2R d < B2R s ->
  forallb (fun y => Bltb d (ds_final Part y)) (segments s parts) = true.
Proof.
  revert s. induction parts as [|p r IH]; intros s H F Fd L; [reflexivity|]. cbn [segments forallb ds_final]. cbn [sum_from fold_left] in F. change (fold_left _ r _) with (sum_from (d_add s (part_length p)) r) in F.
  destruct (sum_finite _ r (fun q I => H q (or_intror I)) F) as [F1 _]. destruct (H p (or_introl eq_refl)) as [_ P]. pose proof (add_grows _ _ F1 P) as G.
  rewrite (proj2 (dltb d _ Fd F1)) by lra. cbn [andb]. apply IH; auto; [intros q I; apply H; right; exact I|lra].
Qed.

(** Where a length leads. *)
Lemma bound_spec s parts (d : double) : (forall p, In p parts -> lengthy p) -> is_finite (sum_from s parts) = true -> is_finite d = true -> B2R s <= B2R d ->
  (d_upper_bound Part d (segments s parts) = Ok (length parts) /\ B2R (sum_from s parts) <= B2R d) \/
  (exists before p after, parts = before ++ p :: after /\ d_upper_bound Part d (segments s parts) = Ok (length before) /\ B2R (sum_from s before) <= B2R d < B2R (d_add (sum_from s before) (part_length p))).
Proof.
  revert s. induction parts as [|p r IH]; intros s H F Fd L; [left; split; [reflexivity|exact L]|]. cbn [segments d_upper_bound ds_final]. cbn [sum_from fold_left] in F. change (fold_left _ r _) with (sum_from (d_add s (part_length p)) r) in F.
  destruct (sum_finite _ r (fun q I => H q (or_intror I)) F) as [F1 _]. pose proof (dltb d _ Fd F1) as B. destruct (Bltb d (d_add s (part_length p))) eqn:E.
  - apply proj1 in B. specialize (B eq_refl). rewrite (finals_above _ r d (fun q I => H q (or_intror I)) F Fd B). right. exists [], p, r. split; [reflexivity|]. split; [reflexivity|]. cbn. lra.
  - assert (L1 : B2R (d_add s (part_length p)) <= B2R d). { destruct (Rle_lt_dec (B2R (d_add s (part_length p))) (B2R d)) as [G|G]; auto. apply B in G. discriminate. }
    destruct (IH _ (fun q I => H q (or_intror I)) F Fd L1) as [(E1 & G)|(before & q & after & -> & E1 & G)].
    + left. rewrite E1. cbn [bind length]. split; [reflexivity|exact G].
    + right. exists (p :: before), q, after. rewrite E1. cbn [bind length app]. split; [reflexivity|]. split; [reflexivity|exact G].
Qed.

(** ** Sums and their rounding *)

Lemma total_app a b : real_total Part part_length (a ++ b) = real_total Part part_length a + real_total Part part_length b.
Proof. unfold real_total. induction a as [|p r IH]; cbn [app total]; [ring|]. rewrite IH. ring. Qed.

Lemma sum_near parts : forall s, (forall p, In p parts -> lengthy p) -> is_finite (sum_from s parts) = true -> 0 <= B2R s ->
  Rabs (B2R (sum_from s parts) - (B2R s + real_total Part part_length parts)) <= INR (length parts) * (2 * u53 * B2R (sum_from s parts)).
Proof.
  induction parts as [|p r IH]; intros s H F P; cbn [sum_from fold_left length] in *.
  { unfold real_total. cbn [total]. replace (B2R s - (B2R s + 0)) with 0 by ring. rewrite Rabs_R0. cbn. lra. }
  change (fold_left _ r _) with (sum_from (d_add s (part_length p)) r) in *. set (s' := d_add s (part_length p)) in *.
  destruct (sum_finite _ r (fun q I => H q (or_intror I)) F) as [F1 L1]. destruct (H p (or_introl eq_refl)) as [_ Pp]. pose proof (add_grows _ _ F1 Pp) as G. fold s' in G.
  specialize (IH s' (fun q I => H q (or_intror I)) F ltac:(lra)). destruct (add_finite _ _ F1) as (_ & _ & E). pose proof (plus53 s (part_length p)) as R1. rewrite <- E in R1. fold s' in R1.
  rewrite (Rabs_pos_eq (B2R s + len p)) in R1 by lra. destruct small_units as (_ & _ & _ & _ & U). set (T := B2R (sum_from s' r)) in *.
  assert (B : B2R s + len p <= 2 * T). { apply Rabs_between in R1. assert (u53 * (B2R s + len p) <= / 2 * (B2R s + len p)) by (apply Rmult_le_compat_r; lra). lra. }
  assert (B' : u53 * (B2R s + len p) <= u53 * (2 * T)) by (apply Rmult_le_compat_l; lra).
  unfold real_total in *. cbn [total]. rewrite S_INR.
  replace (T - _) with ((T - (B2R s' + total Part (fun p => len p) r)) + (B2R s' - (B2R s + len p))) by ring. eapply Rle_trans; [apply Rabs_triang|]. lra.
Qed.

(** ** Finding a part *)

Section Find.
Variables (dflt : State) (parts : list Part) (r : double).
Hypothesis M : measured State Part part_length part_final dflt parts.
Hypothesis Hr : is_ratio r.
Let c := d_compose State Part part_length part_final dflt parts.
Let L := B2R (dk_length _ _ c).

Lemma all_lengthy : forall p, In p parts -> lengthy p.
Proof using M. exact (proj1 M). Qed.
Lemma sum_number : is_finite (sum_from d_zero parts) = true /\ 0 <= L.
Proof using M.
  destruct (composed dflt parts) as [_ E]. pose proof (proj2 M) as F. rewrite E in F. split; [exact F|]. destruct (sum_finite d_zero parts all_lengthy F) as [_ G]. unfold L, c. rewrite E. destruct zero_value as [Z _]. lra.
Qed.

(** The length that is looked up. *)
Lemma looked_up : let d := d_mul r (dk_length _ _ c) in is_finite d = true /\ 0 <= B2R d <= L /\ Rabs (B2R d - B2R r * L) <= u53 * L + eta53.
Proof using M Hr.
  destruct sum_number as [F P]. destruct (composed dflt parts) as [_ E]. destruct Hr as [Fr Br]. pose proof (proj2 M) as FL. fold c in FL.
  assert (B : 0 <= B2R r * L <= L). { split; [apply Rmult_le_pos; lra|]. rewrite <- (Rmult_1_l L) at 2. apply Rmult_le_compat_r; lra. }
  assert (R1 : 0 <= rnd53 (B2R r * L) <= L). { split; [apply round_ge_generic; auto with typeclass_instances; [apply generic_format_0|lra]|apply round_le_generic; auto with typeclass_instances; [apply number_format|lra]]. }
  destruct (dmul_fits r (dk_length _ _ c) Fr FL) as [Fd Ed]. { fold L. rewrite Rabs_pos_eq by lra. apply Rle_lt_trans with L; [lra|]. pose proof (abs_B2R_lt_emax 53 1024 (dk_length _ _ c)) as X. fold L in X. rewrite Rabs_pos_eq in X by exact P. exact X. }
  fold L in Ed. cbv zeta. split; [exact Fd|]. rewrite Ed. split; [exact R1|]. pose proof (StraightFloat_proofs.err53 (B2R r * L)) as R2. rewrite (Rabs_pos_eq (B2R r * L)) in R2 by lra.
  destruct small_units as (_ & _ & _ & _ & U). assert (u53 * (B2R r * L) <= u53 * L) by (apply Rmult_le_compat_l; lra). lra.
Qed.

Lemma found : parts <> [] ->
  exists i p s, d_find_segment State Part part_length c r = Ok (i, s) /\ is_finite s = true /\ 0 <= B2R s <= 1 /\
    (exists before after, parts = before ++ p :: after /\
      (i = length before \/ (i = length parts /\ after = [] /\ s = d_one /\ B2R (d_mul r (dk_length _ _ c)) = L)) /\
      (i = length before -> B2R (d_mul r (dk_length _ _ c)) < L) /\
      Rabs (real_total Part part_length before + B2R s * len p - B2R r * L) <= (INR (length parts) + 2) * (2 * u53 * L) + 2 * eta53).
Proof using M Hr.
  intros Ne. destruct sum_number as [F P]. destruct (composed dflt parts) as [E1 E2]. destruct looked_up as (Fd & Bd & Nd). cbv zeta in *. unfold d_find_segment. set (d := d_mul r (dk_length _ _ c)) in *.
  destruct zero_value as [Z0 _]. destruct small_units as (_ & _ & U3 & _ & U5). change (dk_paths State Part c) with (dk_paths State Part (d_compose State Part part_length part_final dflt parts)). rewrite E1.
  assert (EL : L = B2R (sum_from d_zero parts)) by (unfold L, c; now rewrite E2).
  assert (UL : 0 <= u53 * L) by (apply Rmult_le_pos; lra).
  destruct (bound_spec d_zero parts d all_lengthy F Fd ltac:(lra)) as [(B & G)|(before & p & after & Ep & B & G)]; rewrite B; cbn [bind].
  - rewrite (proj2 (nth_error_None _ _)) by (rewrite segments_length; lia). destruct (exists_last Ne) as (before & p & Ep). exists (length parts), p, d_one. destruct one_value as [O1 O2].
    split; [reflexivity|]. split; [exact O2|]. split; [rewrite O1; lra|]. exists before, []. split; [exact Ep|]. split; [right; repeat split; auto; lra|]. split; [intros X; exfalso; rewrite Ep, app_length in X; cbn in X; lia|].
    pose proof (sum_near parts d_zero all_lengthy F ltac:(lra)) as S. rewrite <- EL, Z0, Rplus_0_l in S. rewrite O1, Rmult_1_l.
    assert (T : real_total Part part_length parts = real_total Part part_length before + len p). { rewrite Ep, total_app. unfold real_total at 2. cbn [total]. ring. }
    replace (real_total Part part_length before + len p - B2R r * L) with ((B2R d - B2R r * L) - (L - real_total Part part_length parts)) by (rewrite T; lra).
    unfold Rminus at 1. eapply Rle_trans; [apply Rabs_triang|]. rewrite Rabs_Ropp. lra.
  - assert (Hin : In p parts) by (rewrite Ep; apply in_elt). destruct (all_lengthy p Hin) as [Fp Pp].
    assert (F2 : is_finite (d_add (sum_from d_zero before) (part_length p)) = true /\ B2R (d_add (sum_from d_zero before) (part_length p)) <= L).
    { pose proof F as F'. rewrite EL. rewrite Ep in F' |- *. rewrite sum_app in F' |- *. cbn [sum_from fold_left] in F' |- *. apply (sum_finite _ after); [|exact F']. intros q I. apply all_lengthy. rewrite Ep. apply in_or_app. right. right. exact I. }
    destruct F2 as [F2 G2]. set (s0 := sum_from d_zero before) in *. destruct (add_finite _ _ F2) as (Fs0 & _ & Es).
    rewrite Ep, segments_app, nth_error_app2 by (rewrite segments_length; lia). rewrite segments_length, Nat.sub_diag. cbn [segments nth_error ds_path ds_init]. fold s0.
    (* the part has a length *)
    assert (PL : 0 < len p). { destruct (Rle_lt_dec (len p) 0) as [X|X]; auto. exfalso. replace (len p) with 0 in Es by lra. rewrite Rplus_0_r, round_generic in Es by (auto with typeclass_instances; apply number_format). lra. }
    assert (NZ : Beqb (part_length p) d_zero = false). { rewrite Beqb_correct by (auto; reflexivity). apply Req_bool_false. rewrite Z0. lra. }
    rewrite NZ. exists (length before), p, (d_div (d_sub d s0) (part_length p)). split; [reflexivity|].
    (* the difference is at most the length *)
    assert (D : 0 <= B2R d - B2R s0 <= len p).
    { split; [lra|]. destruct (Rle_lt_dec (B2R d) (B2R s0 + len p)) as [X|X]; [lra|exfalso]. assert (rnd53 (B2R s0 + len p) <= B2R d); [|lra]. apply round_le_generic; auto with typeclass_instances; [apply number_format|lra]. }
    assert (Rd : 0 <= rnd53 (B2R d - B2R s0) <= len p). { split; [apply round_ge_generic; auto with typeclass_instances; [apply generic_format_0|lra]|apply round_le_generic; auto with typeclass_instances; [apply number_format|lra]]. }
    pose proof (abs_B2R_lt_emax 53 1024 (part_length p)) as Bm. rewrite Rabs_pos_eq in Bm by lra.
    assert (SD : is_finite (d_sub d s0) = true /\ B2R (d_sub d s0) = rnd53 (B2R d - B2R s0)).
    { pose proof (Bminus_correct 53 1024 prec53 emax1024 mode_NE d s0 Fd Fs0) as C. rewrite Rlt_bool_true in C by (rewrite Rabs_pos_eq by lra; lra). destruct C as (C1 & C2 & _). split; assumption. }
    destruct SD as [Fsd Esd]. set (m := B2R (d_sub d s0)) in *. rewrite <- Esd in Rd.
    assert (Q : 0 <= m / len p <= 1). { split; [apply Rmult_le_pos; [lra|apply Rlt_le, Rinv_0_lt_compat; lra]|]. apply Rmult_le_reg_r with (len p); [exact PL|]. unfold Rdiv. rewrite Rmult_assoc, Rinv_l by lra. lra. }
    destruct (div_real (d_sub d s0) (part_length p) 0 Fsd ltac:(lra) ltac:(lia)) as [Fq Eq]. { fold m. rewrite Rabs_pos_eq by lra. change (bpow radix2 0) with 1. lra. }
    fold m in Eq. split; [exact Fq|]. rewrite Eq.
    assert (Rq : 0 <= rnd53 (m / len p) <= 1).
    { split; [apply round_ge_generic; auto with typeclass_instances; [apply generic_format_0|lra]|]. apply round_le_generic; auto with typeclass_instances; [|lra]. change 1 with (bpow radix2 0). apply format53_pow. lia. }
    split; [exact Rq|]. exists before, after. split; [reflexivity|]. split; [left; reflexivity|]. split; [intros _; lra|].
    (* accuracy *)
    set (q := rnd53 (m / len p)) in *. pose proof (StraightFloat_proofs.err53 (m / len p)) as R2. fold q in R2. rewrite (Rabs_pos_eq (m / len p)) in R2 by lra.
    assert (V : m / len p * len p = m) by (field; lra).
    assert (R3 : Rabs (q * len p - m) <= u53 * m + eta53 * len p).
    { rewrite <- V at 1. replace (q * len p - m / len p * len p) with ((q - m / len p) * len p) by ring. rewrite Rabs_mult, (Rabs_pos_eq (len p)) by lra. rewrite <- V at 2.
      replace (u53 * (m / len p * len p) + eta53 * len p) with ((u53 * (m / len p) + eta53) * len p) by ring. apply Rmult_le_compat_r; lra. }
    pose proof (plus53 d (Bopp s0)) as R4. rewrite B2R_Bopp in R4. change (B2R d + - B2R s0) with (B2R d - B2R s0) in R4. rewrite <- Esd in R4. fold m in R4. rewrite (Rabs_pos_eq (B2R d - B2R s0)) in R4 by lra.
    assert (Ls0 : 0 <= B2R s0). { destruct (sum_finite d_zero before (fun q I => all_lengthy q ltac:(rewrite Ep; apply in_or_app; left; exact I)) Fs0) as [_ X]. fold s0 in X. lra. }
    pose proof (sum_near before d_zero (fun q I => all_lengthy q ltac:(rewrite Ep; apply in_or_app; left; exact I)) Fs0 ltac:(lra)) as S. fold s0 in S. rewrite Z0, Rplus_0_l in S.
    assert (Lp : len p <= L). { apply Rle_trans with (B2R (d_add s0 (part_length p))); [|exact G2]. rewrite Es. apply round_ge_generic; auto with typeclass_instances; [apply number_format|lra]. }
    assert (X1 : u53 * m <= u53 * L) by (apply Rmult_le_compat_l; lra). assert (X2 : eta53 * len p <= u53 * L). { apply Rmult_le_compat; try lra. apply bpow_le. lia. }
    assert (X3 : u53 * (B2R d - B2R s0) <= u53 * L) by (apply Rmult_le_compat_l; lra).
    assert (X4 : INR (length before) * (2 * u53 * B2R s0) <= (INR (length parts) - 1) * (2 * u53 * L)).
    { assert (N : INR (length before) <= INR (length parts) - 1). { rewrite Ep, app_length. cbn [length]. rewrite plus_INR, S_INR. pose proof (pos_INR (length after)). lra. }
      apply Rmult_le_compat; [apply pos_INR| |exact N|]. - apply Rmult_le_pos; lra. - apply Rmult_le_compat_l; lra. }
    rewrite <- Ep.
    replace (real_total Part part_length before + q * len p - B2R r * L) with (- (B2R s0 - real_total Part part_length before) + ((q * len p - m) + ((m - (B2R d - B2R s0)) + (B2R d - B2R r * L)))) by ring.
    eapply Rle_trans; [apply Rabs_triang|]. rewrite Rabs_Ropp. eapply Rle_trans; [apply Rplus_le_compat_l, Rabs_triang|]. eapply Rle_trans; [apply Rplus_le_compat_l, Rplus_le_compat_l, Rabs_triang|].
    pose proof (pos_INR (length parts)). lra.
Qed.
End Find.
Variable part_at : Part -> double -> res State.
Variable part_truncate : Part -> double -> Part.
Variable part_direction : Part -> double -> direction.
Variable part_cusps : Part -> list double.

(** ** The functions of a composite *)

Section Functions.
Variables (dflt : State) (parts : list Part) (r : double).
Hypothesis M : measured State Part part_length part_final dflt parts.
Hypothesis Hr : is_ratio r.
Hypothesis Ne : parts <> [].
Let c := d_compose State Part part_length part_final dflt parts.
Let L := B2R (dk_length _ _ c).

Lemma rounding_units n x : (INR n + 2) * (2 * u53 * x) + 2 * eta53 = rounding n x.
Proof using. unfold rounding, u53, eta53. change (-52)%Z with (1 + -53)%Z. change (-1074)%Z with (1 + -1075)%Z. rewrite !bpow_plus. change (bpow radix2 1) with 2. ring. Qed.

Lemma paths_nonempty {A} (x y : A) : match dk_paths _ _ c with [] => x | _ => y end = y.
Proof using Ne. clear M. unfold c. destruct (composed dflt parts) as [E _]. rewrite E. destruct parts; [congruence|reflexivity]. Qed.

Theorem interpolates : exists p s, near_arrives Part part_length (rounding (length parts) L) parts (B2R r * L) p s /\ dk_at State Part part_length part_at c r = part_at p s.
Proof using M Hr Ne.
  clear part_truncate part_direction part_cusps.
  destruct (found dflt parts r M Hr Ne) as (i & p & s & E & Fs & Bs & before & after & Ep & Hi & _ & A). rewrite rounding_units in A. exists p, s. split; [exists before, after; auto|].
  unfold dk_at. fold c in E. rewrite paths_nonempty, E. cbn [bind]. destruct (composed dflt parts) as [E1 _]. unfold c. rewrite E1, segments_length.
  assert (G : (if Nat.eqb i (length parts) then Nat.pred i else i) = length before).
  { rewrite Ep, app_length in *. cbn [length] in *. destruct Hi as [-> |(-> & -> & _)].
    - destruct (Nat.eqb_spec (length before) (length before + S (length after))) as [X|X]; [lia|reflexivity].
    - rewrite Nat.eqb_refl. cbn. lia. }
  rewrite G, Ep, segments_app. unfold vget. rewrite nth_error_app2 by (rewrite segments_length; lia). rewrite segments_length, Nat.sub_diag. reflexivity.
Qed.

Theorem directed : B2R r < 1 -> bpow radix2 (-1000) <= L ->
  exists p s, near_arrives Part part_length (rounding (length parts) L) parts (B2R r * L) p s /\ dk_direction State Part part_length part_direction c r = Ok (part_direction p s).
Proof using M Hr Ne.
  clear part_at part_truncate part_cusps.
  intros R1 TL. destruct (found dflt parts r M Hr Ne) as (i & p & s & E & Fs & Bs & before & after & Ep & Hi & _ & A). rewrite rounding_units in A. exists p, s. split; [exists before, after; auto|].
  unfold dk_direction. fold c in E. rewrite E. cbn [bind]. destruct (composed dflt parts) as [E1 _]. unfold c at 1. rewrite E1. destruct Hi as [-> |(_ & _ & _ & X)].
  - rewrite Ep at 1. rewrite segments_app. unfold vget. rewrite nth_error_app2 by (rewrite segments_length; lia). rewrite segments_length, Nat.sub_diag. reflexivity.
  - exfalso. destruct Hr as [Fr Br]. pose proof (strictly_below r (dk_length _ _ c) Fr (conj (proj1 Br) R1) TL) as B.
    assert (Fc : is_finite (dk_length _ _ c) = true) by exact (proj2 M).
    destruct (dmul_fits r (dk_length _ _ c) Fr Fc) as [_ Ed].
    { pose proof (bpow_gt_0 radix2 (-1000)). fold L. fold L in B. assert (0 <= rnd53 (B2R r * L)). { apply round_ge_generic; auto with typeclass_instances; [apply generic_format_0|]. apply Rmult_le_pos; lra. }
      rewrite Rabs_pos_eq by assumption. pose proof (abs_B2R_lt_emax 53 1024 (dk_length _ _ c)) as Y. fold L in Y. rewrite Rabs_pos_eq in Y by lra. lra. }
    fold c in X. rewrite X in Ed. fold L in B, Ed. lra.
Qed.

(** At the end of the path the list is read past its end. *)
Theorem directed_end : B2R r = 1 -> dk_direction State Part part_length part_direction c r = UB.
Proof using M Hr Ne.
  clear part_at part_truncate part_cusps.
  intros R1. destruct (found dflt parts r M Hr Ne) as (i & p & s & E & _ & _ & before & after & Ep & Hi & Hn & _). unfold dk_direction. fold c in E. rewrite E. cbn [bind]. destruct (composed dflt parts) as [E1 _]. unfold c at 1. rewrite E1.
  assert (X : B2R (d_mul r (dk_length _ _ c)) = L).
  { destruct Hr as [Fr _]. assert (Fc : is_finite (dk_length _ _ c) = true) by exact (proj2 M). assert (R2 : rnd53 (B2R r * B2R (dk_length _ _ c)) = L). { rewrite R1, Rmult_1_l. apply round_generic; auto with typeclass_instances. apply number_format. }
    destruct (dmul_fits r (dk_length _ _ c) Fr Fc) as [_ Ed]; [rewrite R2; apply abs_B2R_lt_emax|]. rewrite Ed. exact R2. }
  assert (Hi' : i = length parts). { destruct Hi as [Hi|(Hi & _)]; [|exact Hi]. exfalso. specialize (Hn Hi). fold c in Hn. fold L in Hn. lra. }
  unfold vget. rewrite (proj2 (nth_error_None _ _)); [reflexivity|]. rewrite segments_length. lia.
Qed.

Theorem truncated : exists c', dk_truncate State Part part_length part_final part_truncate c r = Ok c' /\
  (c' = c /\ B2R (d_mul r (dk_length _ _ c)) = L \/
   exists before p after s, parts = before ++ p :: after /\ is_finite s = true /\ 0 <= B2R s <= 1 /\
     Rabs (real_total Part part_length before + B2R s * len p - B2R r * L) <= rounding (length parts) L /\
     map (ds_path Part) (dk_paths _ _ c') = before ++ [part_truncate p s] /\ dk_final _ _ c' = part_final (part_truncate p s) /\ dk_init _ _ c' = dk_init _ _ c /\
     dk_length _ _ c' = d_add (dk_length _ _ (d_compose State Part part_length part_final dflt before)) (part_length (part_truncate p s))).
Proof using M Hr Ne.
  clear part_at part_direction part_cusps.
  destruct (found dflt parts r M Hr Ne) as (i & p & s & E & Fs & Bs & before & after & Ep & Hi & _ & A). rewrite rounding_units in A.
  unfold dk_truncate. fold c in E. rewrite paths_nonempty, E. cbn [bind]. destruct (composed dflt parts) as [E1 _]. 
  assert (Ec : dk_paths State Part c = segments d_zero parts) by exact E1. rewrite Ec, segments_length. destruct Hi as [-> |(-> & _ & _ & X)].
  - destruct (Nat.eqb_spec (length before) (length parts)) as [Y|Y]; [exfalso; rewrite Ep, app_length in Y; cbn in Y; lia|].
    assert (V : vget (segments d_zero parts) (length before) = Ok (DSegment Part (sum_from d_zero before) (d_add (sum_from d_zero before) (part_length p)) p)).
    { rewrite Ep, segments_app. unfold vget. rewrite nth_error_app2 by (rewrite segments_length; lia). rewrite segments_length, Nat.sub_diag. reflexivity. }
    rewrite V. cbn [bind ds_path ds_init ds_final]. eexists. split; [reflexivity|]. right. exists before, p, after, s. split; [exact Ep|]. split; [exact Fs|]. split; [exact Bs|]. split; [exact A|].
    cbn [dk_paths dk_final dk_init dk_length]. split; [|split; [reflexivity|split; [reflexivity|]]].
    + rewrite map_app. cbn [map ds_path]. f_equal. rewrite Ep, segments_app, firstn_app, segments_length, Nat.sub_diag, firstn_O, app_nil_r.
      rewrite firstn_all2 by (rewrite segments_length; lia). generalize d_zero. clear. induction before as [|q b IH]; intros x; [reflexivity|]. cbn [segments map ds_path]. now rewrite IH.
    + destruct (composed dflt before) as [_ E2]. rewrite E2. reflexivity.
  - rewrite Nat.eqb_refl. exists c. split; [reflexivity|]. left. split; [reflexivity|exact X].
Qed.

(** Both ends are exact. *)
Theorem at_end before p : B2R r = 1 -> parts = before ++ [p] -> dk_at State Part part_length part_at c r = part_at p d_one.
Proof using M Hr Ne.
  clear part_truncate part_direction part_cusps. intros R1 El. destruct (found dflt parts r M Hr Ne) as (i & q & s & E & _ & _ & before' & after & Ep & Hi & Hn & _). unfold dk_at. fold c in E. rewrite paths_nonempty, E. cbn [bind].
  destruct (composed dflt parts) as [E1 _]. assert (Ec : dk_paths State Part c = segments d_zero parts) by exact E1. rewrite Ec, segments_length.
  assert (X : B2R (d_mul r (dk_length _ _ c)) = L).
  { destruct Hr as [Fr _]. assert (Fc : is_finite (dk_length _ _ c) = true) by exact (proj2 M). assert (R2 : rnd53 (B2R r * B2R (dk_length _ _ c)) = L). { rewrite R1, Rmult_1_l. apply round_generic; auto with typeclass_instances. apply number_format. }
    destruct (dmul_fits r (dk_length _ _ c) Fr Fc) as [_ Ed]; [rewrite R2; apply abs_B2R_lt_emax|]. rewrite Ed. exact R2. }
  destruct Hi as [Hi|(-> & -> & -> & _)]; [exfalso; specialize (Hn Hi); fold c in Hn; fold L in Hn; lra|]. rewrite Nat.eqb_refl.
  assert (E2 : before' ++ [q] = before ++ [p]) by congruence. apply app_inj_tail in E2 as [-> ->]. rewrite El, app_length. cbn [length]. replace (Nat.pred (length before + 1)) with (length before) by lia.
  rewrite segments_app. unfold vget. rewrite nth_error_app2 by (rewrite segments_length; lia). rewrite segments_length, Nat.sub_diag. reflexivity.
Qed.
Lemma part_below l : forall s, (forall p, In p l -> lengthy p) -> is_finite (sum_from s l) = true -> 0 <= B2R s -> forall p, In p l -> len p <= B2R (sum_from s l).
Proof using.
  induction l as [|q l IH]; intros s H F P p [].
  - subst q. cbn [sum_from fold_left] in F |- *. change (fold_left _ l _) with (sum_from (d_add s (part_length p)) l) in F |- *. destruct (sum_finite _ l (fun q I => H q (or_intror I)) F) as [F1 L1].
    destruct (add_finite _ _ F1) as (_ & _ & E). apply Rle_trans with (B2R (d_add s (part_length p))); [|exact L1]. rewrite E. apply round_ge_generic; auto with typeclass_instances; [apply number_format|lra].
  - cbn [sum_from fold_left] in F |- *. change (fold_left _ l _) with (sum_from (d_add s (part_length q)) l) in F |- *. destruct (sum_finite _ l (fun x I => H x (or_intror I)) F) as [F1 _]. destruct (H q (or_introl eq_refl)) as [_ Pq].
    pose proof (add_grows _ _ F1 Pq). apply IH; auto; [intros x I; apply H; right; exact I|lra].
Qed.
Theorem at_start : B2R r = 0 -> 0 < L ->
  exists before p after s, parts = before ++ p :: after /\ (forall q, In q before -> len q = 0) /\ 0 < len p /\ is_finite s = true /\ B2R s = 0 /\ dk_at State Part part_length part_at c r = part_at p s.
Proof using M Hr Ne.
  clear part_truncate part_direction part_cusps. intros R0 PL. destruct (looked_up dflt parts r M Hr) as (Fd & Bd & _). cbv zeta in Fd, Bd. destruct (composed dflt parts) as [E1 E2]. assert (Ec : dk_paths State Part c = segments d_zero parts) by exact E1.
  assert (F : is_finite (sum_from d_zero parts) = true) by (rewrite <- E2; exact (proj2 M)). destruct zero_value as [Z0 _]. fold c in Fd, Bd.
  assert (D0 : B2R (d_mul r (dk_length _ _ c)) = 0).
  { destruct Hr as [Fr _]. assert (Fc : is_finite (dk_length _ _ c) = true) by exact (proj2 M). assert (R2 : rnd53 (B2R r * B2R (dk_length _ _ c)) = 0) by (rewrite R0, Rmult_0_l; apply round_0; auto with typeclass_instances).
    destruct (dmul_fits r (dk_length _ _ c) Fr Fc) as [_ Ed]; [rewrite R2, Rabs_R0; apply bpow_gt_0|]. rewrite Ed. exact R2. }
  set (d := d_mul r (dk_length _ _ c)) in *.
  destruct (bound_spec d_zero parts d (all_lengthy dflt parts M) F Fd ltac:(lra)) as [(_ & G)|(before & p & after & Ep & B & G)]; [exfalso; unfold L, c in PL; rewrite E2 in PL; lra|].
  assert (Hb : forall q, In q before -> lengthy q) by (intros q I; apply (all_lengthy dflt parts M); rewrite Ep; apply in_or_app; left; exact I).
  assert (Hp : lengthy p) by (apply (all_lengthy dflt parts M); rewrite Ep; apply in_elt). destruct Hp as [Fp Pp].
  assert (F2 : is_finite (d_add (sum_from d_zero before) (part_length p)) = true).
  { pose proof F as F'. rewrite Ep, sum_app in F'. cbn [sum_from fold_left] in F'. apply (sum_finite _ after); [|exact F']. intros q I. apply (all_lengthy dflt parts M). rewrite Ep. apply in_or_app. right. right. exact I. }
  destruct (add_finite _ _ F2) as (Fs & _ & Es). destruct (sum_finite d_zero before Hb Fs) as [_ Ls].
  assert (S0 : B2R (sum_from d_zero before) = 0) by lra.
  assert (Ppos : 0 < len p). { destruct (Rle_lt_dec (len p) 0) as [X|X]; auto. exfalso. replace (len p) with 0 in Es by lra. rewrite Rplus_0_r, round_generic in Es by (auto with typeclass_instances; apply number_format). lra. }
  exists before, p, after, (d_div (d_sub d (sum_from d_zero before)) (part_length p)). split; [exact Ep|]. split; [|split; [exact Ppos|]].
  { intros q I. pose proof (part_below before d_zero Hb Fs ltac:(lra) q I). destruct (Hb q I) as [_ Pq]. lra. }
  destruct (sub_real d (sum_from d_zero before) 0 Fd Fs ltac:(lia)) as [Fsd Esd]. { replace (B2R d - _) with 0 by lra. rewrite Rabs_R0. apply bpow_ge_0. }
  replace (B2R d - _) with 0 in Esd by lra. rewrite round_0 in Esd by (auto with typeclass_instances).
  destruct (div_real (d_sub d (sum_from d_zero before)) (part_length p) 0 Fsd ltac:(lra) ltac:(lia)) as [Fq Eq]. { rewrite Esd. unfold Rdiv. rewrite Rmult_0_l, Rabs_R0. apply bpow_ge_0. }
  split; [exact Fq|]. split; [rewrite Eq, Esd; unfold Rdiv; rewrite Rmult_0_l; apply round_0; auto with typeclass_instances|].
  unfold dk_at. rewrite paths_nonempty. unfold d_find_segment. fold d. rewrite Ec, B. cbn [bind]. 
  assert (V : nth_error (segments d_zero parts) (length before) = Some (DSegment Part (sum_from d_zero before) (d_add (sum_from d_zero before) (part_length p)) p)).
  { rewrite Ep, segments_app, nth_error_app2 by (rewrite segments_length; lia). rewrite segments_length, Nat.sub_diag. reflexivity. }
  rewrite V. cbn [ds_path ds_init].
  assert (NZ : Beqb (part_length p) d_zero = false). { rewrite Beqb_correct by (auto; reflexivity). apply Req_bool_false. rewrite Z0. lra. }
  rewrite NZ. cbn [bind]. rewrite segments_length. destruct (Nat.eqb_spec (length before) (length parts)) as [X|X]; [exfalso; rewrite Ep, app_length in X; cbn in X; lia|].
  unfold vget. rewrite V. reflexivity.
Qed.

(** The cusps between parts are ratios. *)
Theorem cusps_ratios : 0 < L -> forall x, In x (dk_cusps State Part part_length part_direction part_cusps c) -> (exists p, In p parts /\ In x (part_cusps p)) \/ is_ratio x.
Proof using M.
  clear part_at part_truncate.
  intros PL x. unfold dk_cusps. destruct (composed dflt parts) as [E1 E2]. assert (Ec : dk_paths State Part c = segments d_zero parts) by exact E1. rewrite Ec.
  assert (F : is_finite (sum_from d_zero parts) = true) by (rewrite <- E2; exact (proj2 M)). assert (EL : B2R (dk_length _ _ c) = B2R (sum_from d_zero parts)) by (unfold c; now rewrite E2).
  assert (G : forall rest s prev, (forall p, In p rest -> lengthy p) -> (forall p, In p rest -> In p parts) -> is_finite (sum_from s rest) = true -> 0 <= B2R s -> B2R (sum_from s rest) = L ->
    In x (d_cusp_loop Part part_length part_direction part_cusps (dk_length _ _ c) (segments s rest) s prev) -> (exists p, In p parts /\ In x (part_cusps p)) \/ is_ratio x).
  { induction rest as [|p rest IH]; intros s prev Hl Hi Fs Ps Es; cbn [segments d_cusp_loop ds_path]; [intros []|]. rewrite !in_app_iff. intros [H|[H|H]].
    - destruct (direction_eqb _ _); [destruct H|]. destruct H as [<- |[]]. right. destruct (sum_finite s (p :: rest) Hl Fs) as [Fs0 Ls]. rewrite Es in Ls.
      assert (Q : 0 <= B2R s / L <= 1). { split; [apply Rmult_le_pos; [lra|apply Rlt_le, Rinv_0_lt_compat; lra]|]. apply Rmult_le_reg_r with L; [exact PL|]. unfold Rdiv. rewrite Rmult_assoc, Rinv_l by lra. lra. }
      destruct (div_real s (dk_length _ _ c) 0 Fs0) as [Fq Eq]; [fold L; lra|lia|fold L; rewrite Rabs_pos_eq by lra; change (bpow radix2 0) with 1; lra|].
      split; [exact Fq|]. rewrite Eq. fold L. split; [apply round_ge_generic; auto with typeclass_instances; [apply generic_format_0|lra]|]. apply round_le_generic; auto with typeclass_instances; [|lra]. change 1 with (bpow radix2 0). apply format53_pow. lia.
    - left. exists p. split; [apply Hi; left; reflexivity|exact H].
    - cbn [sum_from fold_left] in Fs, Es. change (fold_left _ rest _) with (sum_from (d_add s (part_length p)) rest) in Fs, Es. destruct (sum_finite _ rest (fun q I => Hl q (or_intror I)) Fs) as [F1 _]. destruct (Hl p (or_introl eq_refl)) as [_ Pp].
      pose proof (add_grows _ _ F1 Pp). revert H. apply IH; auto; try lra; intros q I; [apply Hl|apply Hi]; right; exact I. }
  destruct (segments d_zero parts) as [|x0 l0] eqn:Es; [intros []|]. rewrite <- Es. apply G; auto; [exact (proj1 M)|destruct zero_value as [-> _]; lra].
Qed.
End Functions.
End Composite.
