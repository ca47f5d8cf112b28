(** The sampling of a path in double precision. *)
From Coq Require Import Reals ZArith Lra Lia Sorted.
From Flocq Require Import Core BinarySingleNaN.
From Verif Require Import Base RealBase CoordsFloat_model CoordsFloat_proofs StraightFloat_model StraightFloat_proofs ValidatorFloat_proofs CellFloat_proofs NonHolFloat_proofs CompositeFloat_spec CompositeFloat_proofs RsFloat_proofs
  PathSampleFloat_model PathSampleFloat_spec.
Local Open Scope R_scope.
#[local] Existing Instance prec53.
#[local] Existing Instance emax1024.
#[local] Existing Instance vexp53.
#[local] Existing Instance vrndne.

(** ** The set of cusps *)

Definition ordered (l : list double) : Prop := StronglySorted (fun x y : double => B2R x < B2R y) l.
Definition ratios (l : list double) : Prop := forall c, In c l -> is_ratio c.

Lemma set_insert x l : is_ratio x -> ratios l -> ordered l ->
  ratios (d_set_insert x l) /\ ordered (d_set_insert x l) /\ (length (d_set_insert x l) <= S (length l))%nat /\
  (forall y, In y (d_set_insert x l) -> y = x \/ In y l) /\ (exists y, In y (d_set_insert x l) /\ B2R y = B2R x) /\ incl l (d_set_insert x l).
Proof.
  intros Hx. induction l as [|z r IH]; intros HR HO; cbn [d_set_insert].
  - split; [intros c [<- |[]]; exact Hx|]. split; [repeat constructor|]. split; [reflexivity|]. split; [intros y [<- |[]]; auto|]. split; [exists x; split; [left; reflexivity|reflexivity]|intros y []].
  - inversion HO as [|? ? Hr Hz]; subst. rewrite Forall_forall in Hz. pose proof (HR z (or_introl eq_refl)) as [Fz _]. destruct Hx as [Fx Bx].
    destruct (Bltb x z) eqn:E1.
    + apply dltb in E1; auto. split; [intros c [<- |I]; [split; assumption|apply HR; exact I]|]. split; [constructor; [exact HO|]; apply Forall_forall; intros y [<- |I]; [exact E1|specialize (Hz y I); lra]|].
      split; [cbn; lia|]. split; [intros y [<- |I]; auto|]. split; [exists x; split; [left; reflexivity|reflexivity]|intros y I; right; exact I].
    + assert (N1 : B2R z <= B2R x). { destruct (Rle_lt_dec (B2R z) (B2R x)) as [Y|Y]; [exact Y|]. apply dltb in Y; auto. congruence. }
      destruct (Bltb z x) eqn:E2.
      * apply dltb in E2; auto. destruct IH as (I1 & I2 & I3 & I4 & (y & I5 & I6) & I7); [intros c I; apply HR; right; exact I|exact Hr|].
        split; [intros c [<- |I]; [apply HR; left; reflexivity|apply I1; exact I]|]. split; [constructor; [exact I2|]; apply Forall_forall; intros w I; destruct (I4 w I) as [-> |I']; [exact E2|apply Hz; exact I']|].
        split; [cbn; lia|]. split; [intros w [<- |I]; [right; left; reflexivity|destruct (I4 w I); [auto|right; right; assumption]]|]. split; [exists y; split; [right; exact I5|exact I6]|]. intros w [<- |I]; [left; reflexivity|right; apply I7; exact I].
      * assert (N2 : B2R x <= B2R z). { destruct (Rle_lt_dec (B2R x) (B2R z)) as [Y|Y]; [exact Y|]. apply dltb in Y; auto. congruence. }
        split; [exact HR|]. split; [exact HO|]. split; [cbn; lia|]. split; [auto|]. split; [exists z; split; [left; reflexivity|lra]|apply incl_refl].
Qed.

Lemma fold_inserts l : forall s, ratios l -> ratios s -> ordered s -> let t := fold_left (fun s x => d_set_insert x s) l s in
  ratios t /\ ordered t /\ (length t <= length l + length s)%nat /\ (forall y, In y t -> In y l \/ In y s) /\ (forall x, In x l \/ In x s -> exists y, In y t /\ B2R y = B2R x).
Proof.
  induction l as [|x l IH]; intros s Hl Hs Ho; cbn [fold_left].
  - split; [exact Hs|]. split; [exact Ho|]. split; [cbn; lia|]. split; [auto|]. intros y [[]|I]. eauto.
  - destruct (set_insert x s (Hl x (or_introl eq_refl)) Hs Ho) as (A1 & A2 & A3 & A4 & (y & A5 & A6) & A7). destruct (IH (d_set_insert x s)) as (B1 & B2 & B3 & B4 & B5); auto. { intros c I. apply Hl. right. exact I. }
    split; [exact B1|]. split; [exact B2|]. split; [cbn; lia|]. split; [intros w I; destruct (B4 w I) as [I'|I']; [left; right; exact I'|destruct (A4 w I') as [-> |I2]; [left; left; reflexivity|right; exact I2]]|].
    intros w [[<- |I]|I].
    + destruct (B5 y (or_intror A5)) as (v & V1 & V2). exists v. split; [exact V1|congruence].
    + apply B5. left. exact I.
    + apply B5. right. apply A7. exact I.
Qed.

Lemma zero_ratio : is_ratio d_zero.
Proof. split; [reflexivity|]. change (B2R d_zero) with 0. lra. Qed.
Lemma one_ratio : is_ratio d_one.
Proof. destruct one_real as [F E]. split; [exact F|]. rewrite E. lra. Qed.

Lemma set_spec cusps : ratios cusps -> let s := d_cusp_set cusps in
  ratios s /\ ordered s /\ (length s <= length cusps + 2)%nat /\ (forall c, In c s -> special cusps c) /\ (forall c, special cusps c -> exists y, In y s /\ B2R y = B2R c).
Proof.
  intros H. unfold d_cusp_set. destruct one_real as [_ E1]. destruct (fold_inserts cusps [] H) as (A1 & A2 & A3 & A4 & A5); [intros c []|constructor|]. set (t := fold_left _ _ _) in *.
  destruct (set_insert d_zero t zero_ratio A1 A2) as (B1 & B2 & B3 & B4 & (y & B5 & B6) & B7). destruct (set_insert d_one (d_set_insert d_zero t) one_ratio B1 B2) as (C1 & C2 & C3 & C4 & (z & C5 & C6) & C7).
  split; [exact C1|]. split; [exact C2|]. split; [cbn in A3; lia|]. split.
  - intros c I. split; [apply C1; exact I|]. destruct (C4 c I) as [-> |I2]; [right; left; exact E1|]. destruct (B4 c I2) as [-> |I3]; [left; reflexivity|]. destruct (A4 c I3) as [I4|[]]. right. right. exists c. auto.
  - intros c (_ & [E|[E|(x & I & E)]]).
    + exists y. split; [apply C7; exact B5|rewrite B6, E; reflexivity].
    + exists z. split; [exact C5|congruence].
    + destruct (A5 x (or_introl I)) as (w & W1 & W2). exists w. split; [apply C7, B7; exact W1|congruence].
Qed.

Lemma set_head cusps : ratios cusps -> exists z its, d_cusp_set cusps = z :: its /\ B2R z = 0 /\ forall c, In c its -> 0 < B2R c.
Proof.
  intros H. destruct (set_spec cusps H) as (A1 & A2 & _ & _ & A5). destruct (A5 d_zero) as (y & I & E). { split; [exact zero_ratio|left; reflexivity]. } change (B2R d_zero) with 0 in E.
  destruct (d_cusp_set cusps) as [|z its]; [destruct I|]. inversion A2 as [|? ? Hr Hz]; subst. rewrite Forall_forall in Hz. assert (E0 : B2R z = 0). { destruct I as [<- |I]; [exact E|]. specialize (Hz y I). destruct (A1 z (or_introl eq_refl)) as [_ B]. lra. }
  exists z, its. split; [reflexivity|]. split; [exact E0|]. intros c I'. specialize (Hz c I'). lra.
Qed.

(** ** Rounding *)

Section Loop.
Variables total step : double.
Hypothesis Ft : is_finite total = true.
Hypothesis Fs : is_finite step = true.
Notation T := (B2R total).
Notation S := (B2R step).
Hypothesis HS : bpow radix2 (-900) <= S <= bpow radix2 900.
Hypothesis HT : 0 <= T <= bpow radix2 40 * S.
Definition err : R := bpow radix2 (-12) * S.
Notation e := err.

Lemma grain : 0 < S /\ e = / 4096 * S /\ 0 < u53 /\ u53 * T <= / 2 * e /\ u53 * S <= / 1000 * e /\ 0 < eta53 <= / 1000 * e /\ T <= bpow radix2 940.
Proof using HS HT.
  clear Ft Fs. pose proof (bpow_gt_0 radix2 (-900)) as P9. assert (PS : 0 < S) by lra. split; [exact PS|]. split; [reflexivity|]. unfold e, u53, eta53.
  split; [apply bpow_gt_0|]. split.
  { apply Rle_trans with (bpow radix2 (-53) * (bpow radix2 40 * S)); [apply Rmult_le_compat_l; [apply bpow_ge_0|lra]|]. rewrite <- Rmult_assoc, <- bpow_plus. change (/ 2) with (bpow radix2 (-1)). rewrite <- Rmult_assoc, <- bpow_plus. apply Rmult_le_compat_r; [lra|]. apply bpow_le. lia. }
  assert (M : bpow radix2 (-10) <= / 1000) by (change (bpow radix2 (-10)) with (/ 1024); lra).
  split. { apply Rle_trans with (bpow radix2 (-10) * (bpow radix2 (-12) * S)); [rewrite <- Rmult_assoc, <- bpow_plus; apply Rmult_le_compat_r; [lra|]; apply bpow_le; lia|]. apply Rmult_le_compat_r; [apply Rmult_le_pos; [apply bpow_ge_0|lra]|exact M]. }
  split. { split; [apply bpow_gt_0|]. apply Rle_trans with (bpow radix2 (-10) * (bpow radix2 (-12) * bpow radix2 (-900))); [rewrite <- !bpow_plus; apply bpow_le; lia|]. apply Rmult_le_compat; [apply bpow_ge_0| |exact M|]. { apply Rmult_le_pos; apply bpow_ge_0. } apply Rmult_le_compat_l; [apply bpow_ge_0|lra]. }
  apply Rle_trans with (bpow radix2 40 * bpow radix2 900); [|rewrite <- bpow_plus; apply bpow_le; lia]. apply Rle_trans with (1 := proj2 HT). apply Rmult_le_compat_l; [apply bpow_ge_0|lra].
Qed.

(** The next place. *)
Lemma advanced len : is_finite len = true -> 0 <= B2R len <= T -> is_finite (d_add len step) = true /\ B2R len + S - e <= B2R (d_add len step) <= B2R len + S + e.
Proof using Fs HS HT.
  clear Ft. intros Fl Bl. destruct grain as (PS & Ee & Pu & UT & US & Et & T9). destruct (add_real len step 941 Fl Fs ltac:(lia)) as [F E].
  { rewrite Rabs_pos_eq by lra. apply Rle_trans with (bpow radix2 940 + bpow radix2 940). 2: { change 941%Z with (1 + 940)%Z. rewrite bpow_plus. change (bpow radix2 1) with 2. lra. } assert (bpow radix2 900 <= bpow radix2 940) by (apply bpow_le; lia). lra. }
  split; [exact F|]. pose proof (plus53 len step) as R1. rewrite <- E, (Rabs_pos_eq (B2R len + S)) in R1 by lra. assert (u53 * (B2R len + S) <= u53 * (T + S)) by (apply Rmult_le_compat_l; lra). apply Rabs_between in R1. lra.
Qed.

(** The test of the window of a cusp. *)
Lemma window len c : is_finite len = true -> 0 <= B2R len <= T -> is_ratio c ->
  let lo := d_sub (d_mul c total) (d_div step (d_of 2 0)) in let hi := d_add (d_mul c total) (d_div step (d_of 2 0)) in
  (Bleb lo len && Bltb len hi = true -> B2R len - S / 2 - 3 * e <= B2R c * T <= B2R len + S / 2 + 3 * e) /\
  (Bleb lo len && Bltb len hi = false -> B2R c * T <= B2R len - S / 2 + 3 * e \/ B2R len + S / 2 - 3 * e <= B2R c * T).
Proof using Ft Fs HS HT.
  intros Fl Bl [Fc Bc] lo hi. destruct grain as (PS & Ee & Pu & UT & US & Et & T9). pose proof two_real as E2. assert (S9 : bpow radix2 900 <= bpow radix2 940) by (apply bpow_le; lia). assert (D41 : bpow radix2 940 + bpow radix2 940 = bpow radix2 941) by (change 941%Z with (1 + 940)%Z; rewrite bpow_plus; change (bpow radix2 1) with 2; ring).
  assert (Bx : 0 <= B2R c * T <= T). { split; [apply Rmult_le_pos; lra|]. rewrite <- (Rmult_1_l T) at 2. apply Rmult_le_compat_r; lra. }
  destruct (dmul_real c total 940 Fc Ft ltac:(lia)) as [F1 E1]; [rewrite Rabs_pos_eq by lra; lra|]. pose proof (StraightFloat_proofs.err53 (B2R c * T)) as R1. rewrite <- E1, (Rabs_pos_eq (B2R c * T)) in R1 by lra.
  assert (U1 : u53 * (B2R c * T) <= u53 * T) by (apply Rmult_le_compat_l; lra). set (cl := d_mul c total) in *.
  assert (B1 : 0 <= B2R cl <= T). { rewrite E1. split; [apply round_ge_generic; auto with typeclass_instances; [apply generic_format_0|lra]|apply round_le_generic; auto with typeclass_instances; [apply number_format|lra]]. }
  destruct (div_real step (d_of 2 0) 900 Fs ltac:(rewrite E2; lra) ltac:(lia)) as [F3 E3]; [rewrite E2, Rabs_pos_eq by lra; lra|]. rewrite E2 in E3. pose proof (StraightFloat_proofs.err53 (S / 2)) as R3. rewrite <- E3, (Rabs_pos_eq (S / 2)) in R3 by lra.
  assert (U3 : u53 * (S / 2) <= u53 * S) by (apply Rmult_le_compat_l; lra). set (half := d_div step (d_of 2 0)) in *. apply Rabs_between in R1. apply Rabs_between in R3.
  assert (A1 : Rabs (B2R cl - B2R half) <= T + S) by (apply Rabs_between; lra). assert (A2 : Rabs (B2R cl + B2R half) <= T + S) by (apply Rabs_between; lra).
  destruct (sub_real cl half 941 F1 F3 ltac:(lia)) as [Flo Elo]; [lra|]. destruct (add_real cl half 941 F1 F3 ltac:(lia)) as [Fhi Ehi]; [lra|].
  fold lo in Flo, Elo. fold hi in Fhi, Ehi. pose proof (StraightFloat_proofs.err53 (B2R cl - B2R half)) as R4. rewrite <- Elo in R4. pose proof (StraightFloat_proofs.err53 (B2R cl + B2R half)) as R5. rewrite <- Ehi in R5.
  assert (U4 : u53 * Rabs (B2R cl - B2R half) <= u53 * (T + S)) by (apply Rmult_le_compat_l; lra). assert (U5 : u53 * Rabs (B2R cl + B2R half) <= u53 * (T + S)) by (apply Rmult_le_compat_l; lra). apply Rabs_between in R4. apply Rabs_between in R5. split.
  - intros W. apply andb_prop in W as [W1 W2]. apply dleb in W1; auto. apply dltb in W2; auto. lra.
  - intros W. apply Bool.andb_false_iff in W as [W|W].
    + right. assert (B2R len < B2R lo). { destruct (Rlt_le_dec (B2R len) (B2R lo)) as [Y|Y]; [exact Y|]. apply dleb in Y; auto. congruence. } lra.
    + left. assert (B2R hi <= B2R len). { destruct (Rle_lt_dec (B2R hi) (B2R len)) as [Y|Y]; [exact Y|]. apply dltb in Y; auto. congruence. } lra.
Qed.

(** The ratio of a place. *)
Lemma regular len : is_finite len = true -> 0 <= B2R len <= T -> 0 < T -> is_ratio (d_div len total) /\ Rabs (B2R (d_div len total) * T - B2R len) <= e.
Proof using Ft HS HT.
  clear Fs. intros Fl Bl PT. destruct grain as (PS & Ee & Pu & UT & US & Et & T9). assert (Q : 0 <= B2R len / T <= 1). { split; [apply Rmult_le_pos; [lra|apply Rlt_le, Rinv_0_lt_compat; lra]|]. apply Rmult_le_reg_r with T; [lra|]. unfold Rdiv. rewrite Rmult_assoc, Rinv_l by lra. lra. }
  destruct (div_real len total 0 Fl ltac:(lra) ltac:(lia)) as [F E]; [rewrite Rabs_pos_eq by lra; change (bpow radix2 0) with 1; lra|]. split.
  - split; [exact F|]. rewrite E. split; [apply round_ge_generic; auto with typeclass_instances; [apply generic_format_0|lra]|apply round_le_generic; auto with typeclass_instances; [change 1 with (bpow radix2 0); apply format53_pow; lia|lra]].
  - pose proof (StraightFloat_proofs.err53 (B2R len / T)) as R1. rewrite <- E, (Rabs_pos_eq (B2R len / T)) in R1 by lra. assert (U1 : u53 * (B2R len / T) <= u53 * 1) by (apply Rmult_le_compat_l; lra).
    replace (B2R (d_div len total) * T - B2R len) with ((B2R (d_div len total) - B2R len / T) * T) by (field; lra). rewrite Rabs_mult, (Rabs_pos_eq T) by lra.
    assert (E1 : eta53 <= u53) by (apply bpow_le; lia). apply Rle_trans with ((2 * u53) * T); [apply Rmult_le_compat_r; lra|lra].
Qed.

Lemma place_test len : is_finite len = true -> Bleb len total = true <-> B2R len <= T.
Proof using Ft. intros Fl. apply dleb; auto. Qed.

(** ** The samples *)

(** The samples after the ratio [prev]: in order, close to each other and up to the end. *)
Fixpoint close_by (prev : R) (l : list double) : Prop :=
  match l with
  | [] => T - prev * T < (3 / 2 + bpow radix2 (-8)) * S
  | r :: l' => is_ratio r /\ prev < B2R r /\ (B2R r - prev) * T < (2 + bpow radix2 (-8)) * S /\ close_by (B2R r) l'
  end.

Lemma e8 : bpow radix2 (-8) * S = 16 * e.
Proof using. unfold e. change (-8)%Z with (4 + -12)%Z. rewrite bpow_plus. change (bpow radix2 4) with 16. ring. Qed.

Lemma loop_close set fuel : forall len its rs marks prev pl, is_finite len = true -> 0 <= pl <= T -> pl + S - e <= B2R len <= pl + S + e ->
  ratios its -> ordered its -> incl its set -> (T < B2R len \/ exists c, In c its /\ B2R c = 1) -> T < B2R len + INR fuel * (S / 2) ->
  pl - S / 2 - 3 * e <= prev * T <= pl + S / 2 + 3 * e -> (Rabs (prev * T - pl) <= e \/ forall c, In c its -> prev < B2R c) -> (0 < T \/ T < B2R len) ->
  exists tl mk, d_sample_loop fuel total step len its rs marks = Ok (rs ++ tl, marks ++ mk) /\ close_by prev tl /\
    (forall i, In i mk -> exists c, nth_error (rs ++ tl) i = Some c /\ In c set) /\ (tl = [] \/ INR (length tl) * (S - e) <= T - B2R len + (S - e)).
Proof using Ft Fs HS HT.
  destruct grain as (PS & Ee & Pu & UT & US & Et & T9). pose proof e8 as E8.
  induction fuel as [|k IH]; intros len its rs marks prev pl Fl Bpl Blen HR HO HI Read Fu HP Ord PT; cbn [d_sample_loop].
  - cbn [INR] in Fu. assert (NB : Bleb len total = false). { apply Bool.not_true_is_false. rewrite place_test by exact Fl. lra. } rewrite NB. exists [], []. rewrite !app_nil_r. split; [reflexivity|]. split; [cbn [close_by]; lra|]. split; [intros i []|left; reflexivity].
  - destruct (Bleb len total) eqn:EL.
    2: { assert (NB : T < B2R len). { destruct (Rlt_le_dec T (B2R len)) as [Y|Y]; [exact Y|]. apply place_test in Y; auto. congruence. } exists [], []. rewrite !app_nil_r. split; [reflexivity|]. split; [cbn [close_by]; lra|]. split; [intros i []|left; reflexivity]. }
    apply place_test in EL; [|exact Fl]. assert (P0 : 0 < T) by (destruct PT as [?|?]; lra). destruct its as [|c its']; [destruct Read as [?|(c & [] & _)]; lra|].
    assert (Bl : 0 <= B2R len <= T) by lra. destruct (advanced len Fl Bl) as [Fn Bn]. pose proof (HR c (or_introl eq_refl)) as Rc. destruct (window len c Fl Bl Rc) as [W1 W2]. rewrite S_INR in Fu. inversion HO as [|? ? HO' Hc]; subst. rewrite Forall_forall in Hc.
    set (next := d_add len step) in *.
    assert (CNT : forall tl : list double, (tl = [] \/ INR (length tl) * (S - e) <= T - B2R next + (S - e)) -> forall r, r :: tl = [] \/ INR (length (r :: tl)) * (S - e) <= T - B2R len + (S - e)).
    { intros tl C r. right. cbn [length]. rewrite S_INR. destruct C as [-> |C]; [cbn [length INR]; lra|lra]. }
    destruct (Bleb (d_sub (d_mul c total) (d_div step (d_of 2 0))) len && Bltb len (d_add (d_mul c total) (d_div step (d_of 2 0)))) eqn:EW.
    + specialize (W1 eq_refl). destruct (IH next its' (rs ++ [c]) (marks ++ [length rs]) (B2R c) (B2R len)) as (tl & mk & E & CL & MK & C); auto.
      { intros x I. apply HR. right. exact I. }
      { intros x I. apply HI. right. exact I. }
      { destruct Read as [?|(x & [<- |I] & Ex)]; [left; lra|left; rewrite Ex, Rmult_1_l in W1; lra|right; exists x; auto]. }
      { lra. }
      exists (c :: tl), (length rs :: mk). rewrite <- !app_assoc in E. cbn [app] in E. split; [exact E|]. split; [|split; [|apply CNT; exact C]].
      * cbn [close_by]. split; [exact Rc|]. split; [|split; [lra|exact CL]]. destruct Ord as [A|A]; [|apply A; left; reflexivity]. apply Rabs_between in A. apply Rmult_lt_reg_r with T; [exact P0|]. lra.
      * intros i [<- |I]; [exists c; split; [rewrite nth_error_app2 by lia; rewrite Nat.sub_diag; reflexivity|apply HI; left; reflexivity]|]. destruct (MK i I) as (x & N & X). rewrite <- app_assoc in N. exists x. auto.
    + specialize (W2 eq_refl). destruct (regular len Fl Bl P0) as [Rq Nq]. destruct (IH next (c :: its') (rs ++ [d_div len total]) marks (B2R (d_div len total)) (B2R len)) as (tl & mk & E & CL & MK & C); auto.
      { destruct Read as [?|R1]; [left; lra|right; exact R1]. }
      { lra. }
      { apply Rabs_between in Nq. lra. }
      exists (d_div len total :: tl), mk. rewrite <- !app_assoc in E. cbn [app] in E. split; [exact E|]. split; [|split; [|apply CNT; exact C]].
      * cbn [close_by]. split; [exact Rq|]. apply Rabs_between in Nq. split; [|split; [lra|exact CL]]. apply Rmult_lt_reg_r with T; [exact P0|]. lra.
      * intros i I. destruct (MK i I) as (x & N & X). rewrite <- app_assoc in N. exists x. auto.
Qed.

(** The first sample. *)
Lemma first_step z k its : is_ratio z -> B2R z = 0 -> d_sample_loop (Datatypes.S k) total step d_zero (z :: its) [] [] = d_sample_loop k total step (d_add d_zero step) its [z] [0%nat].
Proof using Ft Fs HS HT.
  intros Rz Ez. destruct grain as (PS & Ee & _). cbn [d_sample_loop]. assert (EL : Bleb d_zero total = true) by (apply place_test; [reflexivity|change (B2R d_zero) with 0; lra]). rewrite EL.
  destruct (window d_zero z eq_refl ltac:(change (B2R d_zero) with 0; lra) Rz) as [_ W]. change (B2R d_zero) with 0 in W. rewrite Ez, Rmult_0_l in W. destruct (Bleb _ d_zero && Bltb d_zero _); [reflexivity|]. specialize (W eq_refl). lra.
Qed.

Lemma size_fits n : (0 <= n <= 2 ^ 31)%Z -> d_fits_size (d_add (d_div total step) (d_of n 0)) = true.
Proof using Ft Fs HS HT.
  intros Hn. destruct grain as (PS & _). destruct (CellFloat_proofs.int_double n ltac:(lia)) as [Fn En].
  assert (Q : 0 <= T / S <= bpow radix2 40). { split; [apply Rmult_le_pos; [lra|apply Rlt_le, Rinv_0_lt_compat; lra]|]. apply Rmult_le_reg_r with S; [lra|]. unfold Rdiv. rewrite Rmult_assoc, Rinv_l by lra. lra. }
  destruct (div_real total step 40 Ft ltac:(lra) ltac:(lia)) as [F1 E1]; [rewrite Rabs_pos_eq by lra; lra|].
  assert (B1 : 0 <= B2R (d_div total step) <= bpow radix2 40). { rewrite E1. split; [apply round_ge_generic; auto with typeclass_instances; [apply generic_format_0|lra]|apply round_le_generic; auto with typeclass_instances; [apply format53_pow; lia|lra]]. }
  assert (Bn : 0 <= IZR n <= bpow radix2 40). { split; [apply IZR_le; lia|]. apply Rle_trans with (bpow radix2 31); [change (bpow radix2 31) with (IZR (2 ^ 31)); apply IZR_le; lia|apply bpow_le; lia]. }
  assert (B2 : 0 <= B2R (d_div total step) + B2R (d_of n 0) <= bpow radix2 41). { rewrite En. change 41%Z with (1 + 40)%Z. rewrite bpow_plus. change (bpow radix2 1) with 2. lra. }
  destruct (add_real (d_div total step) (d_of n 0) 41 F1 Fn ltac:(lia)) as [F2 E2]; [rewrite Rabs_pos_eq by lra; lra|]. set (x := d_add _ _) in *.
  assert (B3 : 0 <= B2R x <= bpow radix2 41). { rewrite E2. split; [apply round_ge_generic; auto with typeclass_instances; [apply generic_format_0|lra]|apply round_le_generic; auto with typeclass_instances; [apply format53_pow; lia|lra]]. }
  destruct (CellFloat_proofs.int_double (-1) ltac:(lia)) as [Fm Em]. destruct (CellFloat_proofs.int_double 1 ltac:(lia)) as [Fo Eo]. unfold d_fits_size. apply andb_true_intro. split.
  - apply dltb; auto. rewrite Em. lra.
  - apply dltb; [exact F2|vm_compute; reflexivity|]. assert (V : B2R (d_of 1 64) = bpow radix2 64). { change (F2R (Float radix2 4503599627370496 12) = bpow radix2 64). unfold F2R. cbn [Fnum Fexp]. change 4503599627370496 with (bpow radix2 52). rewrite <- bpow_plus. reflexivity. }
    rewrite V. apply Rle_lt_trans with (1 := proj2 B3). apply bpow_lt. lia.
Qed.

Lemma sampled cusps : ratios cusps -> (Z.of_nat (length cusps) < 2 ^ 30)%Z -> forall fuel, T < INR fuel * (S / 2) ->
  exists z tl marks, d_sample fuel total step cusps = Ok (z :: tl, marks) /\ is_ratio z /\ B2R z = 0 /\ close_by 0 tl /\
    (forall i, In i marks -> exists c, nth_error (z :: tl) i = Some c /\ In c (d_cusp_set cusps)) /\ In 0%nat marks /\ INR (length tl) * (S - e) <= T.
Proof using Ft Fs HS HT.
  intros HC HL fuel Hf. destruct grain as (PS & Ee & Pu & UT & US & Et & T9). destruct (set_spec cusps HC) as (A1 & A2 & A3 & A4 & A5). destruct (set_head cusps HC) as (z & its & Es & Ez & Hp). unfold d_sample. rewrite size_fits by lia.
  destruct fuel as [|k]; [cbn [INR] in Hf; lra|]. rewrite Es in *. pose proof (A1 z (or_introl eq_refl)) as Rz. rewrite first_step by assumption. destruct (advanced d_zero eq_refl) as [F1 B1]; [change (B2R d_zero) with 0; lra|]. change (B2R d_zero) with 0 in B1. rewrite S_INR in Hf. inversion A2 as [|? ? A2' _]; subst.
  destruct (loop_close (z :: its) k (d_add d_zero step) its [z] [0%nat] 0 0) as (tl & mk & E & CL & MK & C); auto; try lra.
  { intros c I. apply A1. right. exact I. }
  { intros c I. right. exact I. }
  { destruct (A5 d_one) as (y & I & Ey). { split; [exact one_ratio|]. right. left. apply one_real. } destruct one_real as [_ E1]. rewrite E1 in Ey. destruct I as [<- |I]; [lra|]. right. exists y. auto. }
  exists z, tl, (0%nat :: mk). split; [exact E|]. split; [exact Rz|]. split; [exact Ez|]. split; [exact CL|]. split; [|split; [left; reflexivity|]].
  - intros i [<- |I]; [exists z; split; [reflexivity|left; reflexivity]|]. apply MK. exact I.
  - destruct C as [-> |C]; [cbn [length INR]; lra|lra].
Qed.

(** ** Which cusps are kept *)

Lemma loop_kept fuel : forall i its rs marks rs' marks', length rs = i -> let len := added_up step i in is_finite len = true -> 0 <= B2R len -> ratios its -> ordered its ->
  (forall c, In c its -> B2R len - S / 2 + 3 * e < B2R c * T) -> (forall c c', In c its -> In c' its -> B2R c < B2R c' -> B2R c * T + S + 16 * e <= B2R c' * T) ->
  (forall j c, In c its -> (j < length rs')%nat -> 8 * e < Rabs (B2R c * T - (B2R (added_up step j) + S / 2))) ->
  d_sample_loop fuel total step len its rs marks = Ok (rs', marks') ->
  ((i < length rs')%nat -> B2R (added_up step (Nat.pred (length rs'))) <= T) /\ T < B2R (added_up step (length rs')) /\
  ((i < length rs')%nat -> B2R (added_up step (length rs')) <= B2R (added_up step (Nat.pred (length rs'))) + S + e /\ B2R (added_up step (Nat.pred (length rs'))) + S - e <= B2R (added_up step (length rs'))) /\ (exists tl, rs' = rs ++ tl) /\
  (exists mk, marks' = marks ++ mk) /\ (forall c, In c its -> (exists j, In j marks' /\ nth_error rs' j = Some c) \/ B2R (added_up step (length rs')) - S / 2 + 3 * e < B2R c * T).
Proof using Ft Fs HS HT.
  destruct grain as (PS & Ee & Pu & UT & US & Et & T9).
  induction fuel as [|k IH]; intros i its rs marks rs' marks' El len Fl P0 HR HO HH HSep HM E; cbn [d_sample_loop] in E.
  - destruct (Bleb len total) eqn:EL; [discriminate|]. assert (rs' = rs /\ marks' = marks) as [-> ->] by (split; congruence). subst i. split; [lia|].
    split; [destruct (Rlt_le_dec T (B2R len)) as [Y|Y]; [exact Y|]; apply place_test in Y; auto; congruence|]. split; [lia|]. split; [exists []; now rewrite app_nil_r|]. split; [exists []; now rewrite app_nil_r|]. intros c I. right. apply HH. exact I.
  - destruct (Bleb len total) eqn:EL.
    2: { assert (rs' = rs /\ marks' = marks) as [-> ->] by (split; congruence). subst i. split; [lia|].
      split; [destruct (Rlt_le_dec T (B2R len)) as [Y|Y]; [exact Y|]; apply place_test in Y; auto; congruence|]. split; [lia|]. split; [exists []; now rewrite app_nil_r|]. split; [exists []; now rewrite app_nil_r|]. intros c I. right. apply HH. exact I. }
    apply place_test in EL; [|exact Fl]. destruct its as [|c its']; [discriminate|]. assert (Bl : 0 <= B2R len <= T) by lra. destruct (advanced len Fl Bl) as [Fn Bn]. pose proof (HR c (or_introl eq_refl)) as Rc. destruct (window len c Fl Bl Rc) as [W1 W2]. inversion HO as [|? ? HO' Hc]; subst. rewrite Forall_forall in Hc.
    change (d_add len step) with (added_up step (Datatypes.S (length rs))) in E, Fn, Bn. set (next := added_up step (Datatypes.S (length rs))) in *.
    assert (FIN : forall n, (Datatypes.S (length rs) <= n)%nat -> ((Datatypes.S (length rs) < n)%nat -> B2R (added_up step (Nat.pred n)) <= T) -> T < B2R (added_up step n) -> ((Datatypes.S (length rs) < n)%nat -> B2R (added_up step n) <= B2R (added_up step (Nat.pred n)) + S + e /\ B2R (added_up step (Nat.pred n)) + S - e <= B2R (added_up step n)) ->
      B2R (added_up step (Nat.pred n)) <= T /\ T < B2R (added_up step n) /\ B2R (added_up step n) <= B2R (added_up step (Nat.pred n)) + S + e /\ B2R (added_up step (Nat.pred n)) + S - e <= B2R (added_up step n)).
    { intros n Hn X1 X2 X3. destruct (Nat.eq_dec n (Datatypes.S (length rs))) as [-> |N].
      - cbn [Nat.pred]. fold len next. fold next in X2. lra.
      - assert (Hlt : (Datatypes.S (length rs) < n)%nat) by lia. specialize (X1 Hlt). specialize (X3 Hlt). lra. }
    destruct (Bleb (d_sub (d_mul c total) (d_div step (d_of 2 0))) len && Bltb len (d_add (d_mul c total) (d_div step (d_of 2 0)))) eqn:EW.
    + specialize (W1 eq_refl). destruct (IH (Datatypes.S (length rs)) its' (rs ++ [c]) (marks ++ [length rs]) rs' marks') as (Y1 & Y2 & Y3 & (tl & Y4) & (mk & Y5) & Y6); auto.
      { rewrite app_length. cbn [length]. lia. }
      { fold next. lra. }
      { intros x I. apply HR. right. exact I. }
      { intros x I. fold next. specialize (HSep c x (or_introl eq_refl) (or_intror I) (Hc x I)). lra. }
      { intros x y Ix Iy. apply HSep; right; assumption. }
      { intros j x I. apply HM. right. exact I. }
      assert (LN : (Datatypes.S (length rs) <= length rs')%nat) by (rewrite Y4, !app_length; cbn [length]; lia). destruct (FIN _ LN Y1 Y2 Y3) as (Z1 & Z2 & Z3 & Z4). split; [auto|]. split; [exact Z2|]. split; [auto|].
      split; [exists (c :: tl); rewrite Y4, <- app_assoc; reflexivity|]. split; [exists (length rs :: mk); rewrite Y5, <- app_assoc; reflexivity|]. intros x [<- |I]; [left|apply Y6; exact I].
      exists (length rs). split; [rewrite Y5, <- app_assoc; apply in_elt|]. rewrite Y4, <- app_assoc, nth_error_app2, Nat.sub_diag by lia. reflexivity.
    + specialize (W2 eq_refl). assert (Hc0 : B2R len + S / 2 - 3 * e <= B2R c * T). { pose proof (HH c (or_introl eq_refl)). lra. }
      assert (LN : exists tl, rs' = (rs ++ [d_div len total]) ++ tl).
      { clear - E. revert E. generalize (rs ++ [d_div len total]) as w. generalize marks as mm. generalize (c :: its') as l0. generalize next as n0. induction k as [|k IHk]; intros n0 l0 mm w E; cbn [d_sample_loop] in E.
        - destruct (Bleb n0 total); [discriminate|]. assert (rs' = w) as -> by congruence. exists []. now rewrite app_nil_r.
        - destruct (Bleb n0 total); [|assert (rs' = w) as -> by congruence; exists []; now rewrite app_nil_r]. destruct l0 as [|c0 l0]; [discriminate|]. destruct (_ && _); apply IHk in E as [tl ->]; rewrite <- app_assoc; eauto. }
      destruct LN as [tl0 LN]. assert (LN' : (Datatypes.S (length rs) <= length rs')%nat) by (rewrite LN, !app_length; cbn [length]; lia).
      pose proof (HM (length rs) c (or_introl eq_refl) ltac:(lia)) as MD. fold len in MD.
      assert (Hc1 : B2R len + S / 2 + 8 * e < B2R c * T). { unfold Rabs in MD. destruct (Rcase_abs _) in MD; lra. }
      destruct (IH (Datatypes.S (length rs)) (c :: its') (rs ++ [d_div len total]) marks rs' marks') as (Y1 & Y2 & Y3 & (tl & Y4) & (mk & Y5) & Y6); auto.
      { rewrite app_length. cbn [length]. lia. }
      { fold next. lra. }
      { intros x [<- |I]; fold next; [lra|]. specialize (HSep c x (or_introl eq_refl) (or_intror I) (Hc x I)). lra. }
      destruct (FIN _ LN' Y1 Y2 Y3) as (Z1 & Z2 & Z3 & Z4). split; [auto|]. split; [exact Z2|]. split; [auto|].
      split; [exists (d_div len total :: tl); rewrite Y4, <- app_assoc; reflexivity|]. split; [exists mk; exact Y5|exact Y6].
Qed.

Lemma kept cusps fuel rs marks : ratios cusps -> d_sample fuel total step cusps = Ok (rs, marks) ->
  (forall c c', special cusps c -> special cusps c' -> B2R c < B2R c' -> B2R c * T + S + 16 * e <= B2R c' * T) ->
  (forall j c, special cusps c -> (j < length rs)%nat -> 8 * e < Rabs (B2R c * T - (B2R (added_up step j) + S / 2))) ->
  let last := B2R (added_up step (Nat.pred (length rs))) in last <= T < last + S + e /\
  forall c, special cusps c -> B2R c * T <= last + S / 2 -> exists j r, In j marks /\ nth_error rs j = Some r /\ B2R r = B2R c.
Proof using Ft Fs HS HT.
  intros HC E HSep HM. destruct grain as (PS & Ee & Pu & UT & US & Et & T9). destruct (set_spec cusps HC) as (A1 & A2 & A3 & A4 & A5). unfold d_sample in E. destruct (d_fits_size _); [|discriminate].
  destruct (loop_kept fuel 0 (d_cusp_set cusps) [] [] rs marks) as (Y1 & Y2 & Y3 & _ & _ & Y6); auto.
  { change (B2R (added_up step 0)) with 0. lra. }
  { intros c I. change (B2R (added_up step 0)) with 0. destruct (A1 c I) as [_ B]. assert (0 <= B2R c * T) by (apply Rmult_le_pos; lra). lra. }
  assert (Ne : (0 < length rs)%nat). { destruct (length rs) eqn:L0; [|lia]. change (B2R (added_up step 0)) with 0 in Y2. lra. }
  specialize (Y1 Ne). specialize (Y3 Ne). cbv zeta. split; [lra|]. intros c Sc Hc. destruct (A5 c Sc) as (y & I & Ey). destruct (Y6 y I) as [(j & J & N)|Y]; [exists j, y; auto|]. rewrite Ey in Y. lra.
Qed.
End Loop.

(** ** Endless sampling *)

Definition long_total : double := d_of 1 54.
Lemma stagnant len : is_finite len = true -> 0 <= B2R len <= B2R (d_of 1 53) -> is_finite (d_add len d_one) = true /\ 0 <= B2R (d_add len d_one) <= B2R (d_of 1 53).
Proof.
  intros F B. destruct one_real as [F1 E1]. assert (F3 : is_finite (d_of 1 53) = true) by (vm_compute; reflexivity). assert (V : B2R (d_of 1 53) = bpow radix2 53). { change (F2R (Float radix2 4503599627370496 1) = bpow radix2 53). unfold F2R. cbn [Fnum Fexp]. change 4503599627370496 with (bpow radix2 52). rewrite <- bpow_plus. reflexivity. }
  assert (P : 1 <= bpow radix2 53) by (change 1 with (bpow radix2 0); apply bpow_le; lia). assert (D : bpow radix2 54 = 2 * bpow radix2 53) by (change 54%Z with (1 + 53)%Z; rewrite bpow_plus; reflexivity).
  destruct (add_real len d_one 54 F F1 ltac:(lia)) as [F2 E2]; [rewrite Rabs_pos_eq by lra; lra|]. destruct (add_real (d_of 1 53) d_one 54 F3 F1 ltac:(lia)) as [F4 E4]; [rewrite Rabs_pos_eq by lra; lra|].
  split; [exact F2|]. rewrite E2. split; [apply round_ge_generic; auto with typeclass_instances; [apply generic_format_0|lra]|]. apply Rle_trans with (rnd53 (B2R (d_of 1 53) + B2R d_one)); [apply round_le; auto with typeclass_instances; lra|]. rewrite <- E4. apply dleb; auto.
Qed.
Lemma endless_loop fuel : forall len rs marks, is_finite len = true -> 0 <= B2R len <= B2R (d_of 1 53) -> d_sample_loop fuel long_total d_one len [d_one] rs marks = NoFuel.
Proof.
  assert (F3 : is_finite (d_of 1 53) = true) by (vm_compute; reflexivity). assert (F4 : is_finite long_total = true) by (vm_compute; reflexivity).
  assert (LT : B2R (d_of 1 53) <= B2R long_total) by (apply dleb; auto; vm_compute; reflexivity). set (lo := d_sub (d_mul d_one long_total) (d_div d_one (d_of 2 0))). assert (F5 : is_finite lo = true) by (vm_compute; reflexivity).
  assert (LO : B2R (d_of 1 53) < B2R lo) by (apply dltb; auto; vm_compute; reflexivity). induction fuel as [|k IH]; intros len rs marks F B; cbn [d_sample_loop]; (assert (EL : Bleb len long_total = true) by (apply dleb; auto; lra)); rewrite EL; [reflexivity|].
  fold lo. assert (N : Bleb lo len = false). { apply Bool.not_true_is_false. intros Y. apply dleb in Y; auto. lra. } rewrite N. cbn [andb]. destruct (stagnant len F B) as [F' B']. apply IH; assumption.
Qed.
Lemma endless fuel : d_sample fuel long_total d_one [] = NoFuel.
Proof.
  unfold d_sample. assert (V : d_cusp_set [] = [d_zero; d_one]) by reflexivity. rewrite V. assert (SZ : d_fits_size (d_add (d_div long_total d_one) (d_of (Z.of_nat (length [d_zero; d_one])) 0)) = true) by (vm_compute; reflexivity). rewrite SZ.
  destruct fuel as [|k]; [reflexivity|]. assert (W : Bleb (d_sub (d_mul d_zero long_total) (d_div d_one (d_of 2 0))) d_zero && Bltb d_zero (d_add (d_mul d_zero long_total) (d_div d_one (d_of 2 0))) = true) by (vm_compute; reflexivity).
  assert (EL : Bleb d_zero long_total = true) by (vm_compute; reflexivity). cbn [d_sample_loop]. rewrite EL, W. cbn [app length]. apply endless_loop.
  - vm_compute. reflexivity.
  - destruct (stagnant d_zero eq_refl) as [_ H]; [|exact H]. change (B2R d_zero) with 0. split; [lra|]. assert (F3 : is_finite (d_of 1 53) = true) by (vm_compute; reflexivity). change 0 with (B2R d_zero). apply dleb; auto.
Qed.

(** ** The whole, in terms of the specification *)

Lemma close_next total step : forall l prev, close_by total step prev l -> Forall is_ratio l /\
  (forall z, B2R z = prev -> forall before a b after, z :: l = before ++ a :: b :: after -> B2R a < B2R b /\ (B2R b - B2R a) * B2R total < (2 + bpow radix2 (-8)) * B2R step) /\
  (forall z, B2R z = prev -> B2R total - B2R (last (z :: l) z) * B2R total < (3 / 2 + bpow radix2 (-8)) * B2R step).
Proof.
  induction l as [|r l IH]; intros prev H; cbn [close_by] in H.
  - split; [constructor|]. split; [intros z _ [|w [|w' before]] x y after E; discriminate|]. intros z <-. exact H.
  - destruct H as (R & L & G & H). destruct (IH (B2R r) H) as (A & B & C). split; [constructor; assumption|]. split.
    + intros z Ez [|y before] a b after E.
      * assert (a = z /\ b = r) as [-> ->] by (split; cbn [app] in E; congruence). rewrite Ez. lra.
      * apply (B r eq_refl before a b after). exact (f_equal (@tl double) E).
    + intros z Ez. specialize (C r eq_refl). change (last (z :: r :: l) z) with (last (r :: l) z). assert (LL : forall (l : list double) r x y, last (r :: l) x = last (r :: l) y) by (clear; induction l as [|w l IHl]; intros r x y; [reflexivity|]; change (last (w :: l) x = last (w :: l) y); apply IHl). rewrite (LL l r z r). exact C.
Qed.

Lemma samples fuel total step cusps : sampling total step cusps -> 2 * B2R total < INR fuel * B2R step ->
  exists z tl marks, d_sample fuel total step cusps = Ok (z :: tl, marks) /\ B2R z = 0 /\ In 0%nat marks /\ Forall is_ratio (z :: tl) /\
    (forall before a b after, z :: tl = before ++ a :: b :: after -> B2R a < B2R b /\ (B2R b - B2R a) * B2R total < (2 + bpow radix2 (-8)) * B2R step) /\
    B2R total - B2R (last (z :: tl) z) * B2R total < (3 / 2 + bpow radix2 (-8)) * B2R step /\
    (forall i, In i marks -> exists c, nth_error (z :: tl) i = Some c /\ special cusps c) /\ INR (length tl) * ((1 - bpow radix2 (-12)) * B2R step) <= B2R total.
Proof.
  intros (Ft & Fs & HS & HT & HC & HL) Hf. destruct (sampled total step Ft Fs HS HT cusps HC HL fuel ltac:(lra)) as (z & tl & marks & E & Rz & Ez & CL & MK & M0 & CN). destruct (close_next total step tl 0 CL) as (A & B & C). destruct (set_spec cusps HC) as (_ & _ & _ & A4 & _).
  exists z, tl, marks. split; [exact E|]. split; [exact Ez|]. split; [exact M0|]. split; [constructor; assumption|]. split; [apply B; exact Ez|]. split; [apply C; exact Ez|]. split.
  - intros i I. destruct (MK i I) as (c & N & X). exists c. split; [exact N|apply A4; exact X].
  - unfold err in CN. replace ((1 - bpow radix2 (-12)) * B2R step) with (B2R step - bpow radix2 (-12) * B2R step) by ring. exact CN.
Qed.

Lemma kept_cusps fuel total step cusps rs marks : sampling total step cusps -> d_sample fuel total step cusps = Ok (rs, marks) ->
  (forall c c', special cusps c -> special cusps c' -> B2R c < B2R c' -> B2R c * B2R total + (1 + bpow radix2 (-8)) * B2R step <= B2R c' * B2R total) ->
  (forall j c, special cusps c -> (j < length rs)%nat -> bpow radix2 (-9) * B2R step < Rabs (B2R c * B2R total - (B2R (added_up step j) + B2R step / 2))) ->
  let last := B2R (added_up step (Nat.pred (length rs))) in last <= B2R total < last + (1 + bpow radix2 (-12)) * B2R step /\
  forall c, special cusps c -> B2R c * B2R total <= last + B2R step / 2 -> exists j r, In j marks /\ nth_error rs j = Some r /\ B2R r = B2R c.
Proof.
  intros (Ft & Fs & HS & HT & HC & HL) E HSep HM. pose proof (e8 step) as E8. assert (E9 : bpow radix2 (-9) * B2R step = 8 * err step). { unfold err. change (-9)%Z with (3 + -12)%Z. rewrite bpow_plus. change (bpow radix2 3) with 8. ring. }
  destruct (kept total step Ft Fs HS HT cusps fuel rs marks HC E) as [L K].
  - intros c c' S1 S2 Lt. specialize (HSep c c' S1 S2 Lt). lra.
  - intros j c Sc Hj. specialize (HM j c Sc Hj). lra.
  - cbv zeta. split; [unfold err in L; lra|exact K].
Qed.
