(** Reeds-Shepp paths in double precision. *)
From Coq Require Import Reals ZArith Lra Lia.
From Flocq Require Import Core BinarySingleNaN.
From Verif Require Import Base RealBase CoordsFloat_model CoordsFloat_proofs StraightFloat_model StraightFloat_proofs ValidatorFloat_proofs Bicycle_model Composite_model Composite_spec
  CompositeFloat_model CompositeFloat_spec NonHolFloat_proofs CompositeFloat_proofs RsFloat_model RsFloat_spec.
Local Open Scope R_scope.
#[local] Existing Instance prec53.
#[local] Existing Instance emax1024.
#[local] Existing Instance vexp53.
#[local] Existing Instance vrndne.

Lemma dleb (x y : double) : is_finite x = true -> is_finite y = true -> Bleb x y = true <-> B2R x <= B2R y.
Proof. intros Fx Fy. rewrite Bleb_correct by assumption. split; [intros H; destruct (Rle_bool_spec (B2R x) (B2R y)); [assumption|discriminate]|apply Rle_bool_true]. Qed.

(** Sums of bounded lengths are numbers. *)
Lemma sum_bounded {P} (len : P -> double) l : forall s e, is_finite s = true -> (forall p, In p l -> is_finite (len p) = true /\ 0 <= B2R (len p) <= bpow radix2 e) -> 0 <= B2R s <= bpow radix2 e ->
  (-1000 <= e)%Z -> (e + Z.of_nat (length l) < 1024)%Z -> is_finite (sum_from P len s l) = true /\ 0 <= B2R (sum_from P len s l) <= bpow radix2 (e + Z.of_nat (length l)).
Proof.
  induction l as [|p r IH]; intros s e Fs H B He Hn; cbn [sum_from fold_left length].
  { rewrite Z.add_0_r. auto. }
  change (fold_left _ r _) with (sum_from P len (d_add s (len p)) r). cbn [length] in Hn.
  destruct (H p (or_introl eq_refl)) as [Fp Bp]. assert (E1 : bpow radix2 (e + 1) = 2 * bpow radix2 e). { rewrite bpow_plus. change (bpow radix2 1) with 2. ring. }
  assert (R1 : 0 <= rnd53 (B2R s + B2R (len p)) <= bpow radix2 (e + 1)).
  { split; [apply round_ge_generic; auto with typeclass_instances; [apply generic_format_0|lra]|]. apply round_le_generic; auto with typeclass_instances; [apply format53_pow; lia|lra]. }
  destruct (dadd_fits s (len p) Fs Fp) as [F1 V1]. { rewrite Rabs_pos_eq by lra. apply Rle_lt_trans with (bpow radix2 (e + 1)); [lra|]. apply bpow_lt. lia. }
  replace (e + Z.of_nat (S (length r)))%Z with (e + 1 + Z.of_nat (length r))%Z by lia.
  apply IH; auto; [|rewrite V1; exact R1|lia|lia]. intros q I. destruct (H q (or_intror I)) as [Fq Bq]. split; [exact Fq|]. pose proof (bpow_ge_0 radix2 e). lra.
Qed.

Section Path.
Variable radius : double.
Variable l : list d_motion.
Hypothesis U : usable radius l.
Notation rad := (B2R radius).
Definition ml (m : d_motion) : double := d_mul (dm_len m) radius.
Notation mlen m := (B2R (ml m)).
Notation sums := (sum_from d_motion ml).
Definition fine (m : d_motion) : Prop := is_finite (dm_len m) = true /\ 0 <= B2R (dm_len m) <= bpow radix2 400.

Lemma all_fine m : In m l -> fine m.
Proof using U. intros I. destruct U as (_ & _ & _ & H). destruct (H m I) as (F & B & _). split; assumption. Qed.
Lemma radius_fine : is_finite radius = true /\ 0 < rad <= bpow radix2 400.
Proof using U. destruct U as (F & B & _). auto. Qed.

Lemma ml_spec m : fine m -> is_finite (ml m) = true /\ 0 <= mlen m <= bpow radix2 800 /\ Rabs (mlen m - B2R (dm_len m) * rad) <= u53 * (B2R (dm_len m) * rad) + eta53.
Proof using U.
  intros (F & B). destruct radius_fine as [Fr Br]. 
  assert (P : 0 <= B2R (dm_len m) * rad <= bpow radix2 800). { split; [apply Rmult_le_pos; lra|]. change 800%Z with (400 + 400)%Z. rewrite bpow_plus. apply Rmult_le_compat; lra. }
  destruct (dmul_real (dm_len m) radius 800 F Fr ltac:(lia)) as [F1 E]. { rewrite Rabs_pos_eq by lra. lra. }
  unfold ml. rewrite E. split; [exact F1|]. split.
  - split; [apply round_ge_generic; auto with typeclass_instances; [apply generic_format_0|lra]|apply round_le_generic; auto with typeclass_instances; [apply format53_pow; lia|lra]].
  - pose proof (StraightFloat_proofs.err53 (B2R (dm_len m) * rad)) as X. rewrite (Rabs_pos_eq (B2R (dm_len m) * rad)) in X by lra. exact X.
Qed.
Lemma ml_lengthy m : In m l -> lengthy d_motion ml m.
Proof using U. intros I. destruct (ml_spec m (all_fine m I)) as (F & B & _). split; [exact F|lra]. Qed.

(** The rounded lengths and the lengths. *)
Lemma driven_near k : (forall m, In m k -> fine m) ->
  0 <= driven radius k /\ Rabs (real_total d_motion ml k - driven radius k) <= u53 * driven radius k + INR (length k) * eta53.
Proof using U.
  induction k as [|m r IH]; intros H; cbn [driven length].
  { unfold real_total. cbn [total]. rewrite Rminus_0_r, Rabs_R0. cbn [INR]. lra. }
  destruct (IH (fun q I => H q (or_intror I))) as [P N]. destruct (ml_spec m (H m (or_introl eq_refl))) as (_ & B & N1). destruct radius_fine as [_ Br]. destruct (H m (or_introl eq_refl)) as [_ Bm].
  assert (0 <= B2R (dm_len m) * rad) by (apply Rmult_le_pos; lra). split; [lra|]. rewrite S_INR. unfold real_total in *. cbn [total].
  replace (_ + _ - _) with ((mlen m - B2R (dm_len m) * rad) + (total d_motion (fun p => mlen p) r - driven radius r)) by ring. eapply Rle_trans; [apply Rabs_triang|]. lra.
Qed.
Lemma driven_app a b : driven radius (a ++ b) = driven radius a + driven radius b.
Proof using. clear U. induction a as [|m r IH]; cbn [app driven]; [ring|]. rewrite IH. ring. Qed.

Notation X := (driven radius l).
Lemma prefix_driven a b : l = a ++ b -> 0 <= driven radius a <= X.
Proof using U.
  intros E. rewrite E, driven_app. destruct (driven_near a) as [P _]. { intros m I. apply all_fine. rewrite E. apply in_or_app. auto. }
  destruct (driven_near b) as [Q _]. { intros m I. apply all_fine. rewrite E. apply in_or_app. auto. } lra.
Qed.
Lemma few a b : l = a ++ b -> INR (length a) <= 5.
Proof using U. intros E. destruct U as (_ & _ & N & _). rewrite E, app_length in N. replace 5 with (INR 5) by (cbn; lra). apply le_INR. lia. Qed.

(** Sums over a beginning of the path. *)
Lemma prefix_sum a b : l = a ++ b -> let s := sums d_zero a in is_finite s = true /\ 0 <= B2R s <= 2 * X + eta53 * 12 /\ Rabs (B2R s - driven radius a) <= 21 * u53 * X + 6 * eta53.
Proof using U.
  intros E s. assert (HF : forall m, In m a -> fine m) by (intros m I; apply all_fine; rewrite E; apply in_or_app; auto).
  assert (HL : forall m, In m a -> lengthy d_motion ml m) by (intros m I; apply ml_lengthy; rewrite E; apply in_or_app; auto).
  destruct U as (_ & _ & N & _). assert (Na : (length a <= 5)%nat) by (rewrite E, app_length in N; lia).
  destruct (sum_bounded ml a d_zero 800 eq_refl) as [F B]; [| |lia|lia|]. { intros m I. destruct (ml_spec m (HF m I)) as (F1 & B1 & _). auto. } { change (B2R d_zero) with 0. pose proof (bpow_ge_0 radix2 800). lra. }
  fold s in F, B. pose proof (sum_near d_motion ml a d_zero HL F ltac:(change (B2R d_zero) with 0; lra)) as S. fold s in S. change (B2R d_zero) with 0 in S. rewrite Rplus_0_l in S.
  destruct (driven_near a HF) as [P D]. pose proof (prefix_driven a b E) as PX. pose proof (few a b E) as Fa. destruct small_units as (_ & _ & U3 & _ & U5). pose proof (pos_INR (length a)) as P0.
  assert (S' : Rabs (B2R s - real_total d_motion ml a) <= 10 * (u53 * B2R s)). { eapply Rle_trans; [exact S|]. replace (10 * (u53 * B2R s)) with (5 * (2 * u53 * B2R s)) by ring. apply Rmult_le_compat_r; [apply Rmult_le_pos; lra|lra]. }
  assert (D' : Rabs (real_total d_motion ml a - driven radius a) <= u53 * X + 5 * eta53).
  { eapply Rle_trans; [exact D|]. apply Rplus_le_compat; [apply Rmult_le_compat_l; lra|apply Rmult_le_compat_r; lra]. }
  assert (Us : u53 * B2R s <= / 1000 * B2R s) by (apply Rmult_le_compat_r; lra). assert (Ux : u53 * X <= / 1000 * X) by (apply Rmult_le_compat_r; lra).
  assert (UX0 : 0 <= u53 * X) by (apply Rmult_le_pos; lra).
  assert (Bs : B2R s <= 2 * X + 12 * eta53). { apply Rabs_between in S'. apply Rabs_between in D'. lra. }
  split; [exact F|]. split; [lra|].
  assert (Q : 10 * (u53 * B2R s) <= 20 * u53 * X + eta53). { assert (u53 * B2R s <= u53 * (2 * X + 12 * eta53)) by (apply Rmult_le_compat_l; lra). assert (u53 * eta53 <= / 1000 * eta53) by (apply Rmult_le_compat_r; lra). lra. }
  replace (B2R s - driven radius a) with ((B2R s - real_total d_motion ml a) + (real_total d_motion ml a - driven radius a)) by ring. eapply Rle_trans; [apply Rabs_triang|]. lra.
Qed.

(** The reported length. *)
Lemma length_near : is_finite (d_rs_length radius l) = true /\ 0 <= B2R (d_rs_length radius l) <= 4 * X + 2 * eta53 /\ Rabs (B2R (d_rs_length radius l) - X) <= 23 * u53 * X + eta53.
Proof using U.
  unfold d_rs_length, d_motions_length. change (fold_left _ l d_zero) with (sum_from d_motion (fun m => Babs (dm_len m)) d_zero l). set (T := sum_from _ _ _ _).
  destruct U as (Fr & Br & N & HU).
  assert (HL : forall m, In m l -> lengthy d_motion (fun m => Babs (dm_len m)) m). { intros m I. destruct (HU m I) as (F & B & _). split; [rewrite is_finite_Babs; exact F|rewrite B2R_Babs; apply Rabs_pos]. }
  destruct (sum_bounded (fun m => Babs (dm_len m)) l d_zero 400 eq_refl) as [F B]; [| |lia|lia|].
  { intros m I. destruct (HU m I) as (F & B & _). rewrite is_finite_Babs, B2R_Babs, Rabs_pos_eq by lra. auto. } { change (B2R d_zero) with 0. pose proof (bpow_ge_0 radix2 400). lra. }
  fold T in F, B. pose proof (sum_near d_motion (fun m => Babs (dm_len m)) l d_zero HL F ltac:(change (B2R d_zero) with 0; lra)) as S. fold T in S. change (B2R d_zero) with 0 in S. rewrite Rplus_0_l in S.
  pose proof (few l [] (eq_sym (app_nil_r l))) as Fa. destruct small_units as (_ & _ & U3 & _ & U5). pose proof (pos_INR (length l)) as P0.
  assert (S' : Rabs (B2R T - real_total d_motion (fun m => Babs (dm_len m)) l) <= 10 * (u53 * B2R T)). { eapply Rle_trans; [exact S|]. replace (10 * (u53 * B2R T)) with (5 * (2 * u53 * B2R T)) by ring. apply Rmult_le_compat_r; [apply Rmult_le_pos; lra|lra]. }
  assert (EX : real_total d_motion (fun m => Babs (dm_len m)) l * rad = X).
  { clear - HU. unfold real_total. induction l as [|m r IH]; cbn [total driven]; [ring|]. rewrite <- IH by (intros q I; apply HU; right; exact I). destruct (HU m (or_introl eq_refl)) as (_ & B & _). rewrite B2R_Babs, Rabs_pos_eq by lra. ring. }
  set (G := real_total _ _ _) in *.
  assert (M : Rabs (B2R T * rad - X) <= 10 * (u53 * (B2R T * rad))). { rewrite <- EX. replace (B2R T * rad - G * rad) with ((B2R T - G) * rad) by ring. rewrite Rabs_mult, (Rabs_pos_eq rad) by lra. replace (10 * (u53 * (B2R T * rad))) with (10 * (u53 * B2R T) * rad) by ring. apply Rmult_le_compat_r; lra. }
  assert (PT : 0 <= B2R T * rad <= bpow radix2 805).
  { split; [apply Rmult_le_pos; lra|]. change 805%Z with (405 + 400)%Z. rewrite bpow_plus. apply Rmult_le_compat; try lra. apply Rle_trans with (1 := proj2 B). apply bpow_le. lia. }
  destruct (dmul_real T radius 805 F Fr ltac:(lia)) as [FL EL]. { rewrite Rabs_pos_eq by lra. lra. }
  split; [exact FL|]. rewrite EL. pose proof (StraightFloat_proofs.err53 (B2R T * rad)) as E1. rewrite (Rabs_pos_eq (B2R T * rad)) in E1 by lra.
  assert (E0 : 0 <= rnd53 (B2R T * rad)) by (apply round_ge_generic; auto with typeclass_instances; [apply generic_format_0|lra]).
  set (V := B2R T * rad) in *. set (W := rnd53 V) in *. assert (Uv : u53 * V <= / 1000 * V) by (apply Rmult_le_compat_r; lra).
  assert (Vb : V <= 2 * X). { apply Rabs_between in M. lra. } assert (Uv2 : u53 * V <= u53 * (2 * X)) by (apply Rmult_le_compat_l; lra).
  assert (0 <= u53 * X). { apply Rmult_le_pos; [lra|]. destruct (prefix_driven l [] (eq_sym (app_nil_r l))). lra. }
  split; [split; [exact E0|]|].
  - apply Rabs_between in E1. lra.
  - replace (W - X) with ((W - V) + (V - X)) by ring. eapply Rle_trans; [apply Rabs_triang|]. lra.
Qed.

Variable r : double.
Hypothesis Hr : is_ratio r.
Notation L := (B2R (d_rs_length radius l)).
Definition goal_length : double := d_mul r (d_rs_length radius l).
Notation d := goal_length.

Lemma goal_near : is_finite d = true /\ 0 <= B2R d <= L /\ Rabs (B2R d - B2R r * L) <= 4 * u53 * X + 2 * eta53.
Proof using U Hr.
  destruct length_near as (FL & BL & _). destruct Hr as [Fr Br]. unfold d.
  assert (B : 0 <= B2R r * L <= L). { split; [apply Rmult_le_pos; lra|]. rewrite <- (Rmult_1_l L) at 2. apply Rmult_le_compat_r; lra. }
  assert (R1 : 0 <= rnd53 (B2R r * L) <= L). { split; [apply round_ge_generic; auto with typeclass_instances; [apply generic_format_0|lra]|apply round_le_generic; auto with typeclass_instances; [apply number_format|lra]]. }
  destruct (dmul_fits r (d_rs_length radius l) Fr FL) as [Fd Ed]. { rewrite Rabs_pos_eq by lra. apply Rle_lt_trans with L; [lra|]. pose proof (abs_B2R_lt_emax 53 1024 (d_rs_length radius l)) as Y. rewrite Rabs_pos_eq in Y by lra. exact Y. }
  split; [exact Fd|]. rewrite Ed. split; [exact R1|]. pose proof (StraightFloat_proofs.err53 (B2R r * L)) as R2. rewrite (Rabs_pos_eq (B2R r * L)) in R2 by lra.
  destruct small_units as (_ & _ & U3 & _ & U5). assert (u53 * (B2R r * L) <= u53 * (4 * X + 2 * eta53)) by (apply Rmult_le_compat_l; lra). assert (u53 * eta53 <= / 1000 * eta53) by (apply Rmult_le_compat_r; lra). lra.
Qed.

Lemma blur_units x : blur x = 64 * u53 * x + 32 * eta53.
Proof using. unfold blur, u53, eta53. change (-47)%Z with (6 + -53)%Z. change (-1070)%Z with (5 + -1075)%Z. rewrite !bpow_plus. change (bpow radix2 6) with 64. change (bpow radix2 5) with 32. ring. Qed.

(** A place in a motion. *)
Lemma place_near a p b q : l = a ++ p :: b -> 0 <= q <= 1 -> Rabs (q * mlen p - (B2R d - B2R (sums d_zero a))) <= 10 * u53 * X + 8 * eta53 ->
  inside radius l a p q (B2R r * L) (blur X).
Proof using U Hr.
  intros E Bq H. split; [eauto|]. split; [exact Bq|]. assert (Ip : In p l) by (rewrite E; apply in_elt). destruct (prefix_sum a (p :: b) E) as (_ & _ & Na). destruct goal_near as (_ & _ & Nd).
  destruct (ml_spec p (all_fine p Ip)) as (_ & Bp & Np). pose proof (prefix_driven (a ++ [p]) b ltac:(rewrite <- app_assoc; exact E)) as PX. rewrite driven_app in PX. cbn [driven] in PX. pose proof (prefix_driven a (p :: b) E) as PA.
  destruct small_units as (_ & _ & U3 & _ & U5). set (G := B2R (dm_len p) * rad) in *.
  assert (PG : 0 <= G). { unfold G. destruct (all_fine p Ip) as [_ ?]. destruct radius_fine as [_ ?]. apply Rmult_le_pos; lra. }
  assert (UG : u53 * G <= u53 * X) by (apply Rmult_le_compat_l; lra). assert (UG' : u53 * G <= / 1000 * G) by (apply Rmult_le_compat_r; lra).
  assert (N2 : Rabs (q * G - q * mlen p) <= u53 * X + eta53). { replace (q * G - q * mlen p) with (- (q * (mlen p - G))) by ring. rewrite Rabs_Ropp, Rabs_mult, (Rabs_pos_eq q) by lra. apply Rle_trans with (1 * Rabs (mlen p - G)); [apply Rmult_le_compat_r; [apply Rabs_pos|lra]|]. lra. }
  rewrite blur_units. set (s0 := B2R (sums d_zero a)) in *. assert (0 <= u53 * X) by (apply Rmult_le_pos; lra).
  replace (driven radius a + q * G - B2R r * L) with (- (s0 - driven radius a) + ((q * G - q * mlen p) + ((q * mlen p - (B2R d - s0)) + (B2R d - B2R r * L)))) by ring.
  eapply Rle_trans; [apply Rabs_triang|]. rewrite Rabs_Ropp. eapply Rle_trans; [apply Rplus_le_compat_l, Rabs_triang|]. eapply Rle_trans; [apply Rplus_le_compat_l, Rplus_le_compat_l, Rabs_triang|]. lra.
Qed.
(** All of the path. *)
Lemma end_near : B2R (sums d_zero l) <= B2R d -> Rabs (X - B2R r * L) <= blur X.
Proof using U Hr.
  intros H. destruct (prefix_sum l [] (eq_sym (app_nil_r l))) as (_ & _ & Na). destruct goal_near as (_ & Bd & Nd). destruct length_near as (_ & _ & NL). rewrite blur_units. destruct small_units as (_ & _ & U3 & _ & U5).
  assert (0 <= u53 * X). { apply Rmult_le_pos; [lra|]. destruct (prefix_driven l [] (eq_sym (app_nil_r l))). lra. }
  apply Rabs_between in Na. apply Rabs_between in Nd. apply Rabs_between in NL. apply Rabs_le. lra.
Qed.

(** ** The direction *)

Lemma sums_cons s m k : sums s (m :: k) = sums (d_add s (ml m)) k.
Proof using. reflexivity. Qed.
Lemma direction_loop_spec k : forall s, (forall m, In m k -> lengthy d_motion ml m) -> is_finite (sums s k) = true -> is_finite d = true ->
  (exists a p b, k = a ++ p :: b /\ d_direction_loop radius d k s = dm_dir p /\ B2R d <= B2R (d_add (sums s a) (ml p)) /\ (a = [] \/ B2R (sums s a) < B2R d)) \/
  (d_direction_loop radius d k s = NoMotion /\ (k = [] \/ B2R (sums s k) < B2R d)).
Proof using.
  clear U Hr. induction k as [|m k IH]; intros s H F Fd; [right; auto|]. cbn [d_direction_loop]. fold (ml m). rewrite sums_cons in F.
  destruct (sum_finite d_motion ml _ k (fun q I => H q (or_intror I)) F) as [F1 G1]. pose proof (dleb d _ Fd F1) as B. destruct (Bleb d (d_add s (ml m))) eqn:E.
  - left. exists [], m, k. split; [reflexivity|]. split; [reflexivity|]. split; [apply B; reflexivity|auto].
  - assert (L1 : B2R (d_add s (ml m)) < B2R d). { destruct (Rlt_le_dec (B2R (d_add s (ml m))) (B2R d)) as [Y|Y]; auto. apply B in Y. discriminate. }
    destruct (IH _ (fun q I => H q (or_intror I)) F Fd) as [(a & p & b & -> & E1 & B1 & C1)|(E1 & C1)].
    + left. exists (m :: a), p, b. split; [reflexivity|]. split; [exact E1|]. rewrite sums_cons. split; [exact B1|]. right. destruct C1 as [-> |C1]; [exact L1|exact C1].
    + right. split; [exact E1|]. right. rewrite sums_cons. destruct C1 as [-> |C1]; [exact L1|exact C1].
Qed.

(** A motion that ends behind the place contains it. *)
Lemma room a p b : l = a ++ p :: b -> B2R d <= B2R (d_add (sums d_zero a) (ml p)) -> B2R (sums d_zero a) <= B2R d ->
  0 <= B2R d - B2R (sums d_zero a) <= mlen p + 4 * u53 * X + eta53 /\ mlen p <= 2 * X + eta53.
Proof using U.
  clear Hr. intros E B B0. destruct (prefix_sum a (p :: b) E) as (_ & Bs & _). destruct (prefix_sum (a ++ [p]) b ltac:(rewrite <- app_assoc; exact E)) as (F & _ & _).
  rewrite sum_app in F. cbn [sum_from fold_left] in F. change (fold_left (fun a0 p0 => d_add a0 (ml p0)) a d_zero) with (sums d_zero a) in F. set (s0 := sums d_zero a) in *.
  assert (Ip : In p l) by (rewrite E; apply in_elt). destruct (ml_spec p (all_fine p Ip)) as (_ & Bp & Np). destruct small_units as (_ & _ & U3 & _ & U5).
  pose proof (prefix_driven (a ++ [p]) b ltac:(rewrite <- app_assoc; exact E)) as PX. rewrite driven_app in PX. cbn [driven] in PX. pose proof (prefix_driven a (p :: b) E) as PA.
  set (G := B2R (dm_len p) * rad) in *.
  assert (PG : 0 <= G). { unfold G. destruct (all_fine p Ip) as [_ ?]. destruct radius_fine as [_ ?]. apply Rmult_le_pos; lra. }
  assert (UG' : u53 * G <= / 1000 * G) by (apply Rmult_le_compat_r; lra).
  assert (M1 : mlen p <= 2 * X + eta53). { apply Rabs_between in Np. lra. }
  destruct (add_finite _ _ F) as (_ & _ & EA). pose proof (plus53 s0 (ml p)) as R1. rewrite <- EA in R1. rewrite (Rabs_pos_eq (B2R s0 + mlen p)) in R1 by lra. apply Rabs_between in R1.
  assert (u53 * (B2R s0 + mlen p) <= u53 * (4 * X + 13 * eta53)) by (apply Rmult_le_compat_l; lra). assert (u53 * eta53 <= / 1000 * eta53) by (apply Rmult_le_compat_r; lra). split; [lra|exact M1].
Qed.

Lemma list_lengthy : forall m, In m l -> lengthy d_motion ml m.
Proof using U. intros m. apply ml_lengthy. Qed.
Lemma sums_finite : is_finite (sums d_zero l) = true.
Proof using U. destruct (prefix_sum l [] (eq_sym (app_nil_r l))) as (F & _). exact F. Qed.

Theorem directed : l <> [] ->
  (exists a p q, inside radius l a p q (B2R r * L) (blur X) /\ d_direction_loop radius d l d_zero = dm_dir p) \/
  (d_direction_loop radius d l d_zero = NoMotion /\ Rabs (X - B2R r * L) <= blur X).
Proof using U Hr.
  intros Ne. destruct goal_near as (Fd & Bd & _). destruct (direction_loop_spec l d_zero list_lengthy sums_finite Fd) as [(a & p & b & E & V & B & C)|(V & C)].
  - left. assert (B0 : B2R (sums d_zero a) <= B2R d). { destruct C as [-> |C]; [cbn; lra|lra]. } destruct (room a p b E B B0) as [R1 R2]. set (s0 := B2R (sums d_zero a)) in *.
    assert (Ip : In p l) by (rewrite E; apply in_elt). destruct (ml_spec p (all_fine p Ip)) as (_ & Bp & _). destruct small_units as (_ & _ & U3 & _ & U5).
    assert (PX : 0 <= u53 * X). { apply Rmult_le_pos; [lra|]. destruct (prefix_driven l [] (eq_sym (app_nil_r l))). lra. }
    destruct (Rle_lt_dec (mlen p) (B2R d - s0)) as [Y|Y].
    + exists a, p, 1. split; [|exact V]. apply (place_near a p b 1 E ltac:(lra)). fold s0. apply Rabs_le. lra.
    + exists a, p, ((B2R d - s0) / mlen p). split; [|exact V]. apply (place_near a p b _ E).
      * split; [apply Rmult_le_pos; [lra|apply Rlt_le, Rinv_0_lt_compat; lra]|]. apply Rmult_le_reg_r with (mlen p); [lra|]. unfold Rdiv. rewrite Rmult_assoc, Rinv_l by lra. lra.
      * fold s0. replace ((B2R d - s0) / mlen p * mlen p) with (B2R d - s0) by (field; lra). rewrite Rminus_diag_eq by reflexivity. rewrite Rabs_R0. lra.
  - right. split; [exact V|]. apply end_near. destruct C as [C|C]; [contradiction|lra].
Qed.

(** ** Interpolation *)

Section Interp.
Variable Pose : Type.
Variable move : Pose -> d_motion -> double -> Pose.

Lemma times_one x : is_finite x = true -> B2R x <> 0 -> d_mul x d_one = x.
Proof using.
  clear U Hr move Pose. intros F N. destruct one_real as [F1 E1]. assert (V : rnd53 (B2R x * B2R d_one) = B2R x) by (rewrite E1, Rmult_1_r; apply rnd_double).
  destruct (dmul_fits x d_one F F1) as [F2 E2]. { rewrite V. apply abs_B2R_lt_emax. } rewrite V in E2.
  assert (G : forall y : double, is_finite y = true -> B2R y <> 0 -> is_finite_strict y = true). { intros [s|s| |s m e H] Fy Ny; try discriminate; try reflexivity; exfalso; apply Ny; reflexivity. }
  apply B2R_inj; auto. apply G; [exact F2|]. rewrite E2. exact N.
Qed.

(** A motion that ends before the place is driven completely. *)
Lemma complete len m : is_finite d = true -> is_finite len = true -> is_finite (ml m) = true -> 0 < mlen m -> B2R len + mlen m <= B2R d -> 0 <= B2R len -> d_min (d_div (d_sub d len) (ml m)) d_one = d_one.
Proof using.
  clear U Hr move Pose. intros Fd Fl Fm P H P0. destruct one_real as [F1 E1]. pose proof (abs_B2R_lt_emax 53 1024 d) as Bm. rewrite Rabs_pos_eq in Bm by lra.
  assert (R1 : mlen m <= rnd53 (B2R d - B2R len) <= B2R d). { split; [apply round_ge_generic|apply round_le_generic]; auto with typeclass_instances; try apply number_format; lra. }
  assert (SD : is_finite (d_sub d len) = true /\ B2R (d_sub d len) = rnd53 (B2R d - B2R len)).
  { pose proof (Bminus_correct 53 1024 prec53 emax1024 mode_NE d len Fd Fl) as C. rewrite Rlt_bool_true in C by (rewrite Rabs_pos_eq by lra; lra). destruct C as (C1 & C2 & _). split; assumption. }
  destruct SD as [Fs Es]. rewrite <- Es in R1. set (x := d_sub d len) in *. unfold d_min.
  assert (Q : 1 <= B2R x / mlen m). { apply Rmult_le_reg_r with (mlen m); [exact P|]. unfold Rdiv. rewrite Rmult_assoc, Rinv_l by lra. lra. }
  assert (Rq : 1 <= rnd53 (B2R x / mlen m)). { apply round_ge_generic; auto with typeclass_instances. change 1 with (bpow radix2 0). apply format53_pow. lia. }
  pose proof (Bdiv_correct 53 1024 prec53 emax1024 mode_NE x (ml m) ltac:(lra)) as C. destruct (Rlt_bool_spec (Rabs (rnd53 (B2R x / mlen m))) (bpow radix2 1024)) as [Y|Y].
  - destruct C as (C1 & C2 & _). change (Bdiv mode_NE x (ml m)) with (d_div x (ml m)) in *. rewrite Fs in C2. destruct (Bltb d_one (d_div x (ml m))) eqn:E; [reflexivity|].
    assert (V : B2R (d_div x (ml m)) = 1). { destruct (Rlt_le_dec 1 (B2R (d_div x (ml m)))) as [Z|Z]; [|rewrite C1 in *; lra]. rewrite <- E1 in Z. apply (dltb d_one _ F1 C2) in Z. congruence. }
    apply B2R_inj; [|reflexivity|congruence]. destruct (d_div x (ml m)) as [sg|sg| |sg mm ee hh]; auto; cbn in V; lra.
  - change (Bdiv mode_NE x (ml m)) with (d_div x (ml m)) in C. 
    assert (Sx : Bsign x = false). { destruct x as [sg|sg| |sg mm ee hh] eqn:Ex; cbn [B2R] in *; try lra. destruct sg; [|reflexivity]. exfalso. assert (F2R (Float radix2 (SpecFloat.cond_Zopp true (Z.pos mm)) ee) < 0) by (apply F2R_lt_0; reflexivity). lra. }
    assert (Sm : Bsign (ml m) = false). { destruct (ml m) as [sg|sg| |sg mm ee hh] eqn:Ex; cbn [B2R] in *; try lra. destruct sg; [|reflexivity]. exfalso. assert (F2R (Float radix2 (SpecFloat.cond_Zopp true (Z.pos mm)) ee) < 0) by (apply F2R_lt_0; reflexivity). lra. }
    rewrite Sx, Sm in C. cbn in C. destruct (d_div x (ml m)) as [sg|sg| |sg mm ee hh]; try discriminate. injection C as ->. reflexivity.
Qed.

Lemma interp_loop_spec k : forall s len x, (forall m, In m k -> lengthy d_motion ml m) -> (forall m, In m k -> fine m) -> is_finite (sums s k) = true -> is_finite d = true -> is_finite len = true ->
  B2R len = B2R s -> 0 <= B2R s <= B2R d ->
  (exists a p b, k = a ++ p :: b /\ 0 < mlen p /\ B2R (sums s a) <= B2R d <= B2R (d_add (sums s a) (ml p)) /\
     exists len', is_finite len' = true /\ B2R len' = B2R (sums s a) /\
       d_interp_loop Pose move radius d k len x = move (drive Pose move radius a x) p (d_mul (dm_len p) (d_min (d_div (d_sub d len') (ml p)) d_one))) \/
  (d_interp_loop Pose move radius d k len x = drive Pose move radius k x /\ B2R (sums s k) <= B2R d).
Proof using U.
  clear Hr. induction k as [|m k IH]; intros s len x H HF F Fd Fl El Bs; [right; split; [reflexivity|cbn; lra]|]. cbn [d_interp_loop]. fold (ml m). rewrite sums_cons in F.
  destruct (sum_finite d_motion ml _ k (fun q I => H q (or_intror I)) F) as [F1 _]. destruct (H m (or_introl eq_refl)) as [Fm Pm]. destruct (add_finite _ _ F1) as (Fs & _ & E1).
  destruct (Beqb (ml m) d_zero) eqn:Z.
  - assert (Z0 : mlen m = 0). { rewrite Beqb_correct in Z by (auto; reflexivity). destruct (Req_bool_spec (mlen m) (B2R d_zero)) as [Y|Y]; [exact Y|discriminate]. }
    rewrite Z0, Rplus_0_r, rnd_double in E1.
    destruct (IH (d_add s (ml m)) len x (fun q I => H q (or_intror I)) (fun q I => HF q (or_intror I)) F Fd Fl ltac:(congruence) ltac:(lra)) as [(a & p & b & -> & Q1 & Q2 & len' & Q3 & Q4 & Q5)|(Q1 & Q2)].
    + left. exists (m :: a), p, b. split; [reflexivity|]. split; [exact Q1|]. rewrite sums_cons. split; [exact Q2|]. exists len'. split; [exact Q3|]. split; [exact Q4|]. rewrite Q5. unfold drive. cbn [fold_left]. fold (ml m). rewrite Z. reflexivity.
    + right. rewrite Q1, sums_cons. split; [|exact Q2]. unfold drive. cbn [fold_left]. fold (ml m). rewrite Z. reflexivity.
  - assert (NZ : 0 < mlen m). { rewrite Beqb_correct in Z by (auto; reflexivity). destruct (Req_bool_spec (mlen m) (B2R d_zero)) as [Y|Y]; [discriminate|]. change (B2R d_zero) with 0 in Y. lra. }
    assert (E2 : is_finite (d_add len (ml m)) = true /\ B2R (d_add len (ml m)) = B2R (d_add s (ml m))).
    { destruct (dadd_fits len (ml m) Fl Fm) as [F2 E2]. { rewrite El, <- E1. apply abs_B2R_lt_emax. } split; [exact F2|]. congruence. }
    destruct E2 as [F2 E2]. pose proof (dleb d _ Fd F2) as B. destruct (Bleb d (d_add len (ml m))) eqn:E.
    + left. exists [], m, k. split; [reflexivity|]. split; [exact NZ|]. cbn [sum_from fold_left]. split; [split; [lra|rewrite <- E2; apply B; reflexivity]|]. exists len. auto.
    + assert (L1 : B2R (d_add s (ml m)) < B2R d). { rewrite <- E2. destruct (Rlt_le_dec (B2R (d_add len (ml m))) (B2R d)) as [Y|Y]; auto. apply B in Y. discriminate. }
      assert (L2 : B2R len + mlen m <= B2R d). { rewrite El. destruct (Rle_lt_dec (B2R s + mlen m) (B2R d)) as [Y|Y]; [exact Y|]. exfalso. assert (B2R d <= rnd53 (B2R s + mlen m)); [|lra]. apply round_ge_generic; auto with typeclass_instances; [apply number_format|lra]. }
      rewrite (complete len m Fd Fl Fm NZ L2 ltac:(lra)). destruct (HF m (or_introl eq_refl)) as [Fdm Bdm].
      assert (N0 : B2R (dm_len m) <> 0). { intros Y. unfold ml in NZ. destruct radius_fine as [Fr _]. destruct (dmul_zero (dm_len m) radius Y Fdm Fr) as [_ V]. lra. }
      rewrite (times_one (dm_len m) Fdm N0). assert (Pz : 0 <= B2R (d_add s (ml m))) by (pose proof (add_grows s (ml m) F1 Pm); lra).
      assert (DR : forall a, drive Pose move radius (m :: a) x = drive Pose move radius a (move x m (dm_len m))). { intros a. unfold drive. cbn [fold_left]. fold (ml m). rewrite Z. reflexivity. }
      destruct (IH (d_add s (ml m)) (d_add len (ml m)) (move x m (dm_len m)) (fun q I => H q (or_intror I)) (fun q I => HF q (or_intror I)) F Fd F2 E2 ltac:(lra)) as [(a & p & b & -> & Q1 & Q2 & len' & Q3 & Q4 & Q5)|(Q1 & Q2)].
      * left. exists (m :: a), p, b. split; [reflexivity|]. split; [exact Q1|]. rewrite sums_cons. split; [exact Q2|]. exists len'. split; [exact Q3|]. split; [exact Q4|]. rewrite Q5, DR. reflexivity.
      * right. rewrite Q1, sums_cons, DR. split; [reflexivity|exact Q2].
Qed.

(** The ratio of the last motion. *)
Lemma last_ratio a p b len : l = a ++ p :: b -> 0 < mlen p -> B2R (sums d_zero a) <= B2R d <= B2R (d_add (sums d_zero a) (ml p)) -> is_finite len = true -> B2R len = B2R (sums d_zero a) -> is_finite d = true ->
  let q := d_min (d_div (d_sub d len) (ml p)) d_one in is_ratio q /\ inside radius l a p (B2R q) (B2R r * L) (blur X).
Proof using U Hr.
  clear move Pose. intros E P B Fl El Fd q. destruct (room a p b E (proj2 B) (proj1 B)) as [R1 R2]. assert (Ip : In p l) by (rewrite E; apply in_elt). destruct (ml_spec p (all_fine p Ip)) as (Fp & Bp & _).
  destruct (prefix_sum a (p :: b) E) as (_ & Bs & _). destruct small_units as (_ & _ & U3 & _ & U5). destruct one_real as [F1 E1].
  assert (PX : 0 <= u53 * X). { apply Rmult_le_pos; [lra|]. destruct (prefix_driven l [] (eq_sym (app_nil_r l))). lra. }
  set (s0 := B2R (sums d_zero a)) in *. destruct (Rle_lt_dec (s0 + mlen p) (B2R d)) as [Y|Y].
  - assert (Eq : q = d_one) by (apply complete; auto; rewrite El; lra). rewrite Eq, E1. split; [split; [exact F1|rewrite E1; lra]|]. apply (place_near a p b 1 E ltac:(lra)). fold s0. apply Rabs_le. lra.
  - assert (Rd : 0 <= rnd53 (B2R d - B2R len) <= mlen p). { rewrite El. split; [apply round_ge_generic; auto with typeclass_instances; [apply generic_format_0|lra]|apply round_le_generic; auto with typeclass_instances; [apply number_format|lra]]. }
    assert (SD : is_finite (d_sub d len) = true /\ B2R (d_sub d len) = rnd53 (B2R d - B2R len)).
    { pose proof (Bminus_correct 53 1024 prec53 emax1024 mode_NE d len Fd Fl) as C. rewrite Rlt_bool_true in C. - destruct C as (C1 & C2 & _). split; assumption. - change (Rabs (rnd53 (B2R d - B2R len)) < bpow radix2 1024). rewrite Rabs_pos_eq by lra. apply Rle_lt_trans with (bpow radix2 800); [lra|apply bpow_lt; lia]. }
    destruct SD as [Fs Es]. rewrite <- Es in Rd. set (m := B2R (d_sub d len)) in *.
    assert (Q : 0 <= m / mlen p <= 1). { split; [apply Rmult_le_pos; [lra|apply Rlt_le, Rinv_0_lt_compat; lra]|]. apply Rmult_le_reg_r with (mlen p); [exact P|]. unfold Rdiv. rewrite Rmult_assoc, Rinv_l by lra. lra. }
    destruct (div_real (d_sub d len) (ml p) 0 Fs ltac:(lra) ltac:(lia)) as [Fq Eq]. { fold m. rewrite Rabs_pos_eq by lra. change (bpow radix2 0) with 1. lra. }
    fold m in Eq.
    assert (Rq : 0 <= rnd53 (m / mlen p) <= 1). { split; [apply round_ge_generic; auto with typeclass_instances; [apply generic_format_0|lra]|]. apply round_le_generic; auto with typeclass_instances; [|lra]. change 1 with (bpow radix2 0). apply format53_pow. lia. }
    assert (Vq : q = d_div (d_sub d len) (ml p)). { unfold q, d_min. destruct (Bltb d_one (d_div (d_sub d len) (ml p))) eqn:W; [|reflexivity]. apply (dltb d_one _ F1 Fq) in W. rewrite E1, Eq in W. lra. }
    rewrite Vq. split; [split; [exact Fq|rewrite Eq; exact Rq]|]. apply (place_near a p b _ E); rewrite Eq; [exact Rq|]. fold s0.
    set (q' := rnd53 (m / mlen p)) in *. pose proof (StraightFloat_proofs.err53 (m / mlen p)) as R3. fold q' in R3. rewrite (Rabs_pos_eq (m / mlen p)) in R3 by lra.
    assert (V : m / mlen p * mlen p = m) by (field; lra).
    assert (R4 : Rabs (q' * mlen p - m) <= u53 * m + eta53 * mlen p).
    { rewrite <- V at 1. replace (q' * mlen p - m / mlen p * mlen p) with ((q' - m / mlen p) * mlen p) by ring. rewrite Rabs_mult, (Rabs_pos_eq (mlen p)) by lra. rewrite <- V at 2.
      replace (u53 * (m / mlen p * mlen p) + eta53 * mlen p) with ((u53 * (m / mlen p) + eta53) * mlen p) by ring. apply Rmult_le_compat_r; lra. }
    pose proof (plus53 d (Bopp len)) as R5. rewrite B2R_Bopp in R5. change (B2R d + - B2R len) with (B2R d - B2R len) in R5. rewrite <- Es in R5. fold m in R5. rewrite El in R5. rewrite (Rabs_pos_eq (B2R d - s0)) in R5 by lra.
    assert (X1 : u53 * m <= u53 * mlen p) by (apply Rmult_le_compat_l; lra). assert (X2 : eta53 * mlen p <= u53 * mlen p). { apply Rmult_le_compat_r; [lra|]. apply bpow_le. lia. }
    assert (X3 : u53 * (B2R d - s0) <= u53 * mlen p) by (apply Rmult_le_compat_l; lra).
    assert (X4 : u53 * mlen p <= u53 * (2 * X + eta53)) by (apply Rmult_le_compat_l; lra). assert (X5 : u53 * eta53 <= / 1000 * eta53) by (apply Rmult_le_compat_r; lra).
    replace (q' * mlen p - (B2R d - s0)) with ((q' * mlen p - m) + (m - (B2R d - s0))) by ring. eapply Rle_trans; [apply Rabs_triang|]. lra.
Qed.

Theorem interpolated init : B2R (d_rs_length radius l) <> 0 ->
  (exists a p q, is_ratio q /\ inside radius l a p (B2R q) (B2R r * L) (blur X) /\ d_rs_at Pose move radius l init r = move (drive Pose move radius a init) p (d_mul (dm_len p) q)) \/
  (Rabs (X - B2R r * L) <= blur X /\ d_rs_at Pose move radius l init r = drive Pose move radius l init).
Proof using U Hr.
  intros NL. destruct length_near as (FL & _). destruct goal_near as (Fd & Bd & _). unfold d_rs_at. rewrite Beqb_correct by (auto; reflexivity). rewrite Req_bool_false by exact NL. fold d.
  destruct (interp_loop_spec l d_zero d_zero init list_lengthy all_fine sums_finite Fd eq_refl eq_refl ltac:(change (B2R d_zero) with 0; lra)) as [(a & p & b & E & P & B & len & Fl & El & V)|(V & B)].
  - left. destruct (last_ratio a p b len E P B Fl El Fd) as [Q1 Q2]. eauto 8.
  - right. split; [apply end_near; exact B|exact V].
Qed.
End Interp.

(** ** Cusps *)

Section Cusps.
Hypothesis NL : L <> 0.
Notation total := (d_rs_length radius l).

Lemma long_enough : 2 * eta53 <= L.
Proof using U NL.
  clear Hr. destruct length_near as (F & B & _). assert (S : is_finite_strict total = true). { destruct total as [sg|sg| |sg mm ee hh]; try discriminate; try reflexivity. exfalso. apply NL. reflexivity. }
  pose proof (abs_B2R_ge_emin 53 1024 total S) as G. rewrite Rabs_pos_eq in G by lra. unfold eta53. change (SpecFloat.emin 53 1024) with (-1074)%Z in G. change (-1074)%Z with (1 + -1075)%Z in G. rewrite bpow_plus in G. change (bpow radix2 1) with 2 in G. exact G.
Qed.
Lemma boundary a b len : l = a ++ b -> is_finite len = true -> B2R len = B2R (sums d_zero a) ->
  is_finite (d_div len total) = true /\ 0 <= B2R (d_div len total) /\ Rabs (B2R (d_div len total) * L - driven radius a) <= blur X /\ (1 < B2R (d_div len total) -> L < B2R len).
Proof using U NL.
  clear Hr. intros E Fl El. destruct (prefix_sum a b E) as (_ & Bs & Na). rewrite <- El in Bs, Na. destruct length_near as (FL & BL & NLn). pose proof long_enough as LE. destruct small_units as (_ & _ & U3 & _ & U5).
  assert (P0 : 0 <= X). { destruct (prefix_driven l [] (eq_sym (app_nil_r l))). lra. } assert (PX : 0 <= u53 * X <= / 1000 * X) by (split; [apply Rmult_le_pos; lra|apply Rmult_le_compat_r; lra]).
  set (y := B2R len) in *. assert (Y16 : y <= 16 * L). { apply Rabs_between in NLn. lra. }
  assert (Q : 0 <= y / L <= 16). { split; [apply Rmult_le_pos; [lra|apply Rlt_le, Rinv_0_lt_compat; lra]|]. apply Rmult_le_reg_r with L; [lra|]. unfold Rdiv. rewrite Rmult_assoc, Rinv_l by lra. lra. }
  destruct (div_real len total 4 Fl NL ltac:(lia)) as [Fq Eq]. { fold y. rewrite Rabs_pos_eq by lra. change (bpow radix2 4) with 16. lra. }
  fold y in Eq. split; [exact Fq|]. rewrite Eq. split; [apply round_ge_generic; auto with typeclass_instances; [apply generic_format_0|lra]|]. split.
  - pose proof (StraightFloat_proofs.err53 (y / L)) as R3. rewrite (Rabs_pos_eq (y / L)) in R3 by lra. set (q := rnd53 (y / L)) in *. assert (V : y / L * L = y) by (field; lra).
    assert (R4 : Rabs (q * L - y) <= u53 * y + eta53 * L).
    { rewrite <- V at 1. replace (q * L - y / L * L) with ((q - y / L) * L) by ring. rewrite Rabs_mult, (Rabs_pos_eq L) by lra. rewrite <- V at 2. replace (u53 * (y / L * L) + eta53 * L) with ((u53 * (y / L) + eta53) * L) by ring. apply Rmult_le_compat_r; lra. }
    assert (X1 : u53 * y <= u53 * (2 * X + 12 * eta53)) by (apply Rmult_le_compat_l; lra). assert (X2 : eta53 * L <= u53 * L). { apply Rmult_le_compat_r; [lra|]. apply bpow_le. lia. }
    assert (X4 : u53 * L <= u53 * (4 * X + 2 * eta53)) by (apply Rmult_le_compat_l; lra). assert (X5 : u53 * eta53 <= / 1000 * eta53) by (apply Rmult_le_compat_r; lra).
    rewrite blur_units. replace (q * L - driven radius a) with ((q * L - y) + (y - driven radius a)) by ring. eapply Rle_trans; [apply Rabs_triang|]. lra.
  - intros H. destruct (Rlt_le_dec L y) as [G|G]; [exact G|exfalso]. assert (rnd53 (y / L) <= 1); [|lra]. apply round_le_generic; auto with typeclass_instances; [change 1 with (bpow radix2 0); apply format53_pow; lia|].
    apply Rmult_le_reg_r with L; [lra|]. unfold Rdiv. rewrite Rmult_assoc, Rinv_l by lra. lra.
Qed.

Lemma direction_eqb_eq a b : direction_eqb a b = true <-> a = b.
Proof using. clear U Hr NL. destruct a, b; cbn; split; congruence. Qed.
Lemma prefix_add a p b len : l = a ++ p :: b -> is_finite len = true -> B2R len = B2R (sums d_zero a) -> is_finite (d_add len (ml p)) = true /\ B2R (d_add len (ml p)) = B2R (sums d_zero (a ++ [p])).
Proof using U.
  clear Hr NL. intros E Fl El. destruct (prefix_sum (a ++ [p]) b ltac:(rewrite <- app_assoc; exact E)) as (F & _). rewrite sum_app in F |- *. cbn [sum_from fold_left] in F |- *. change (fold_left (fun a0 p0 => d_add a0 (ml p0)) a d_zero) with (sums d_zero a) in *.
  destruct (add_finite _ _ F) as (_ & Fm & E1). destruct (dadd_fits len (ml p) Fl Fm) as [F2 E2]. { rewrite El, <- E1. apply abs_B2R_lt_emax. } split; [exact F2|]. congruence.
Qed.
Lemma sums_grow a b : l = a ++ b -> B2R (sums d_zero a) <= B2R (sums d_zero l).
Proof using U. clear Hr NL. intros E. pose proof sums_finite as F. rewrite E in F |- *. rewrite sum_app in F |- *. apply (sum_finite d_motion ml _ b); [|exact F]. intros q I. apply list_lengthy. rewrite E. apply in_or_app. auto. Qed.

Lemma cusp_loop_sound k : forall a p len, l = a ++ p :: k -> is_finite len = true -> B2R len = B2R (sums d_zero (a ++ [p])) ->
  forall x, In x (d_rs_cusp_loop radius total k (dm_dir p) len) ->
  exists a' p' q b, l = a' ++ p' :: q :: b /\ dm_dir p' <> dm_dir q /\ is_ratio x /\ Rabs (B2R x * L - driven radius (a' ++ [p'])) <= blur X.
Proof using U NL.
  clear Hr. induction k as [|q k IH]; intros a p len E Fl El x I; [contradiction|]. cbn [d_rs_cusp_loop] in I. fold (ml q) in I.
  destruct (boundary (a ++ [p]) (q :: k) len ltac:(rewrite <- app_assoc; exact E) Fl El) as (Fx & Px & Nx & _). destruct one_real as [F1 E1].
  destruct (Bltb d_one (d_div len total)) eqn:G; [contradiction|]. apply in_app_or in I. destruct I as [I|I].
  - destruct (direction_eqb (dm_dir q) (dm_dir p)) eqn:D; [contradiction|]. destruct I as [<- |[]]. exists a, p, q, k. split; [exact E|]. split; [intros Y; rewrite Y in D; rewrite (proj2 (direction_eqb_eq _ _) eq_refl) in D; discriminate|].
    split; [split; [exact Fx|]|exact Nx]. split; [exact Px|]. rewrite <- E1. destruct (Rle_lt_dec (B2R (d_div len total)) (B2R d_one)) as [Y|Y]; [exact Y|]. apply (dltb _ _ F1 Fx) in Y. congruence.
  - assert (E' : l = (a ++ [p]) ++ q :: k) by (rewrite <- app_assoc; exact E). destruct (prefix_add (a ++ [p]) q k len E' Fl El) as [F2 E2]. exact (IH (a ++ [p]) q _ E' F2 E2 x I).
Qed.

Lemma cusp_loop_complete k : forall a p len, l = a ++ p :: k -> is_finite len = true -> B2R len = B2R (sums d_zero (a ++ [p])) ->
  forall c q b e, p :: k = c ++ q :: e :: b -> dm_dir q <> dm_dir e ->
  (exists x, In x (d_rs_cusp_loop radius total k (dm_dir p) len) /\ Rabs (B2R x * L - driven radius (a ++ c ++ [q])) <= blur X) \/ L <= driven radius (a ++ c ++ [q]) + blur X.
Proof using U NL.
  clear Hr. induction k as [|q0 k IH]; intros a p len E Fl El c q b e Es N; [destruct c as [|? [|? ?]]; discriminate|]. cbn [d_rs_cusp_loop]. fold (ml q0).
  assert (E' : l = (a ++ [p]) ++ q0 :: k) by (rewrite <- app_assoc; exact E). destruct (boundary (a ++ [p]) (q0 :: k) len E' Fl El) as (Fx & Px & Nx & Gx). destruct one_real as [F1 E1].
  destruct (Bltb d_one (d_div len total)) eqn:G.
  - right. apply (dltb _ _ F1 Fx) in G. rewrite E1 in G. apply Gx in G. rewrite El in G.
    assert (Ec : exists c', c ++ [q] = p :: c'). { destruct c as [|y c]; [exists []|exists (c ++ [q])]; cbn [app] in *; congruence. } destruct Ec as [c' Ec].
    assert (E2 : l = (a ++ c ++ [q]) ++ e :: b). { rewrite E, Es, <- !app_assoc. reflexivity. }
    destruct (prefix_sum (a ++ c ++ [q]) (e :: b) E2) as (F3 & _ & Na). rewrite Ec in *. assert (Eq : a ++ p :: c' = (a ++ [p]) ++ c') by (rewrite <- app_assoc; reflexivity). rewrite Eq in *.
    assert (GR : B2R (sums d_zero (a ++ [p])) <= B2R (sums d_zero ((a ++ [p]) ++ c'))). { rewrite (sum_app _ _ _ (a ++ [p]) c') in F3 |- *. apply (sum_finite d_motion ml _ c'); [|exact F3]. intros z I. apply list_lengthy. rewrite E2. apply in_or_app. left. apply in_or_app. auto. }
    rewrite blur_units. destruct small_units as (_ & _ & U3 & _ & U5). assert (PX : 0 <= u53 * X). { apply Rmult_le_pos; [lra|]. destruct (prefix_driven l [] (eq_sym (app_nil_r l))). lra. }
    apply Rabs_between in Na. lra.
  - destruct (prefix_add (a ++ [p]) q0 k len E' Fl El) as [F2 E2]. destruct c as [|y c].
    + injection Es as <- <- <-. left. exists (d_div len total). split; [|exact Nx]. apply in_or_app. left. destruct (direction_eqb (dm_dir q0) (dm_dir p)) eqn:D; [apply direction_eqb_eq in D; congruence|left; reflexivity].
    + injection Es as <- Es. destruct (IH (a ++ [p]) q0 _ E' F2 E2 c q b e Es N) as [(x & I & V)|V]; rewrite <- app_assoc in V.
      * left. exists x. split; [apply in_or_app; right; exact I|exact V].
      * right. exact V.
Qed.

Theorem cusps_sound x : In x (d_rs_cusps radius l) ->
  exists a p q b, l = a ++ p :: q :: b /\ dm_dir p <> dm_dir q /\ is_ratio x /\ Rabs (B2R x * L - driven radius (a ++ [p])) <= blur X.
Proof using U NL.
  clear Hr. unfold d_rs_cusps. destruct length_near as (FL & _). rewrite Beqb_correct by (auto; reflexivity). rewrite Req_bool_false by exact NL. intros I. destruct l as [|m k] eqn:El; [contradiction|]. rewrite <- El in *.
  destruct (prefix_add [] m k d_zero El eq_refl eq_refl) as [F E].
  assert (M : is_finite (ml m) = true /\ B2R (ml m) = B2R (sums d_zero ([] ++ [m]))). { destruct (ml_spec m) as (F1 & _); [apply all_fine; rewrite El; left; reflexivity|]. split; [exact F1|]. rewrite <- E. destruct (add_finite _ _ F) as (_ & _ & ->). change (B2R d_zero) with 0. rewrite Rplus_0_l. symmetry. apply rnd_double. }
  destruct M as [F1 E1]. fold (ml m) in I. exact (cusp_loop_sound k [] m (ml m) El F1 E1 x I).
Qed.
Theorem cusps_complete a p q b : l = a ++ p :: q :: b -> dm_dir p <> dm_dir q ->
  (exists x, In x (d_rs_cusps radius l) /\ Rabs (B2R x * L - driven radius (a ++ [p])) <= blur X) \/ L <= driven radius (a ++ [p]) + blur X.
Proof using U NL.
  clear Hr. intros Es N. unfold d_rs_cusps. destruct length_near as (FL & _). rewrite Beqb_correct by (auto; reflexivity). rewrite Req_bool_false by exact NL. destruct l as [|m k] eqn:El; [destruct a; discriminate|]. rewrite <- El in *.
  destruct (prefix_add [] m k d_zero El eq_refl eq_refl) as [F E].
  assert (M : is_finite (ml m) = true /\ B2R (ml m) = B2R (sums d_zero ([] ++ [m]))). { destruct (ml_spec m) as (F1 & _); [apply all_fine; rewrite El; left; reflexivity|]. split; [exact F1|]. rewrite <- E. destruct (add_finite _ _ F) as (_ & _ & ->). change (B2R d_zero) with 0. rewrite Rplus_0_l. symmetry. apply rnd_double. }
  destruct M as [F1 E1]. fold (ml m). exact (cusp_loop_complete k [] m (ml m) El F1 E1 a p b q ltac:(rewrite <- El; exact Es) N).
Qed.
End Cusps.
End Path.
