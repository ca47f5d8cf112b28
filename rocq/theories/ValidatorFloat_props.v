(** C123: the validation of paths in single and double precision. *)
From Coq Require Import Reals ZArith Lra Lia.
From Flocq Require Import Core BinarySingleNaN.
From Verif Require Import Base CoordsFloat_model StraightFloat_model ValidatorFloat_model ValidatorFloat_proofs.
Local Open Scope R_scope.

(** A path along the x-axis whose states are given by their ratio, in a large square without border effects. *)
Definition line (r : double) : res double := Ok r.
Definition origin_xy (_ : double) : double * double := (d_zero, d_zero).
Definition far_low : double * double := (d_of (-1) 60, d_of (-1) 60).
Definition far_high : double * double := (d_of 1 60, d_of 1 60).
Definition anywhere (_ : double) : res bool := Ok true.

(** The full claim: [IsPathValid] returns, an accepted path keeps the required clearance up to the interpolation distance, and the ratio reported
    for a rejected path leads to a valid state. It is false twice. With a long path and a small interpolation distance the loop adds
    steps that are lost by rounding, and never ends, although every state of the path is valid; *)
Definition near_then_tight (r : double) : res single := Ok (if Beqb r d_zero then s_of 1 25 else s_of 1 0).
Lemma stuck k lv : f_loop origin_xy line anywhere near_then_tight far_low far_high (s_of 1 0) (s_of 1 (-30)) k (d_of 1 30) (d_of 1 25) lv = NoFuel.
Proof.
  revert lv. induction k as [|k IH]; intros lv; cbn [f_loop].
  - assert (E : Bltb (d_of 1 25) (d_of 1 30) = true) by (vm_compute; reflexivity). now rewrite E.
  - assert (E : Bltb (d_of 1 25) (d_of 1 30) = true) by (vm_compute; reflexivity). rewrite E.
    change (line (d_div (d_of 1 25) (d_of 1 30))) with (Ok (d_div (d_of 1 25) (d_of 1 30))). cbn [bind]. set (x := d_div (d_of 1 25) (d_of 1 30)).
    assert (V : f_state_valid anywhere near_then_tight (s_of 1 0) x = Ok true) by (vm_compute; reflexivity). rewrite V. cbn [bind negb].
    assert (D : near_then_tight x = Ok (s_of 1 0)) by (unfold near_then_tight; now replace (Beqb x d_zero) with false by (vm_compute; reflexivity)). rewrite D. cbn [bind].
    assert (N : d_add (d_of 1 25) (widen (f_step origin_xy far_low far_high (s_of 1 0) (s_of 1 (-30)) x (s_of 1 0))) = d_of 1 25) by (apply B2SF_inj; vm_compute; reflexivity).
    rewrite N. apply IH.
Qed.
Theorem C123_terminates_refuted :
  exists (xy : double -> double * double) interp inside distance lb ub (minSafe minStep : single) (init len : double),
    0 < B2R minStep /\ 0 < B2R len /\ (forall r, interp r = Ok r) /\ (forall x, f_state_valid inside distance minSafe x = Ok true) /\
    forall fuel, f_path_valid xy interp inside distance lb ub minSafe minStep fuel init len = NoFuel.
Proof.
  exists origin_xy, line, anywhere, near_then_tight, far_low, far_high, (s_of 1 0), (s_of 1 (-30)), d_zero, (d_of 1 30).
  split. { change (0 < F2R (Float radix2 8388608 (-53))). now apply F2R_gt_0. }
  split. { change (0 < F2R (Float radix2 4503599627370496 (-22))). now apply F2R_gt_0. }
  split; [reflexivity|]. split.
  { intros x. unfold f_state_valid, anywhere, near_then_tight. cbn [bind]. destruct (Beqb x d_zero); vm_compute; reflexivity. }
  intros fuel. unfold f_path_valid. assert (Z : Beqb (d_of 1 30) d_zero = false) by (vm_compute; reflexivity). rewrite Z.
  assert (E : Bltb d_zero (d_of 1 30) = true) by (vm_compute; reflexivity).
  destruct fuel as [|k]; cbn [f_loop]; rewrite E; [reflexivity|].
  change (line (d_div d_zero (d_of 1 30))) with (Ok (d_div d_zero (d_of 1 30))). cbn [bind]. set (x := d_div d_zero (d_of 1 30)).
  assert (V : f_state_valid anywhere near_then_tight (s_of 1 0) x = Ok true) by (vm_compute; reflexivity). rewrite V. cbn [bind negb].
  assert (D : near_then_tight x = Ok (s_of 1 25)) by (unfold near_then_tight; now replace (Beqb x d_zero) with true by (vm_compute; reflexivity)). rewrite D. cbn [bind].
  assert (N : d_add d_zero (widen (f_step origin_xy far_low far_high (s_of 1 0) (s_of 1 (-30)) x (s_of 1 25))) = d_of 1 25) by (apply B2SF_inj; vm_compute; reflexivity).
  rewrite N. apply stuck.
Qed.
Print Assumptions C123_terminates_refuted.

(** and the ratio is stored in single precision, so that it may lead past the last valid state, to an invalid one. Here the first tenth of the path
    is valid, and the ratio stored is slightly above a tenth. *)
Definition first_tenth (r : double) : res single := Ok (if Bleb r (d_div d_one (d_of 10 0)) then s_of 1 0 else s_of 0 0).
Theorem C123_truncation_point_refuted :
  exists (xy : double -> double * double) interp inside distance lb ub (minSafe minStep : single) (init len : double) fuel r,
    0 < B2R minStep /\ 0 < B2R len /\ (forall q, interp q = Ok q) /\ f_state_valid inside distance minSafe init = Ok true /\
    f_path_valid xy interp inside distance lb ub minSafe minStep fuel init len = Ok (false, r) /\
    f_state_valid inside distance minSafe (widen r) = Ok false.
Proof.
  exists origin_xy, line, anywhere, first_tenth, far_low, far_high, (s_of 1 0), (s_of 1 0), d_zero, (d_of 10 0), 3%nat, (narrow (d_div d_one (d_of 10 0))).
  split. { change (0 < F2R (Float radix2 8388608 (-23))). now apply F2R_gt_0. }
  split. { change (0 < F2R (Float radix2 5629499534213120 (-49))). now apply F2R_gt_0. }
  split; [reflexivity|]. split; [vm_compute; reflexivity|]. split; [|vm_compute; reflexivity].
  match goal with |- ?lhs = _ =>
    assert (Q : match lhs with Ok (false, q) => B2SF q = B2SF (narrow (d_div d_one (d_of 10 0))) | _ => False end) by (vm_compute; reflexivity);
    destruct lhs as [[[] q]| | |]; try contradiction end.
  apply B2SF_inj in Q. now rewrite Q.
Qed.
Print Assumptions C123_truncation_point_refuted.

(** It returns if the path is shorter than 2^52 interpolation distances, and every state can be checked, after at most four times as many rounds as
    the interpolation distance fits into the path. *)
Theorem C123_terminates_partial :
  forall St (xy : St -> double * double) interp inside distance lb ub (minSafe minStep : single) (init : St) (len : double),
    is_finite minSafe = true -> Rabs (B2R minSafe) <= bpow radix2 100 -> is_finite minStep = true -> 0 < B2R minStep <= bpow radix2 100 ->
    is_finite len = true -> 0 < B2R len <= bpow radix2 100 -> B2R len <= bpow radix2 52 * B2R minStep ->
    (forall r : double, is_finite r = true -> 0 <= B2R r <= 1 -> exists x, interp r = Ok x /\
       (inside x = Ok false \/ exists d, inside x = Ok true /\ distance x = Ok d /\ is_finite d = true /\ Rabs (B2R d) <= bpow radix2 100)) ->
    exists b r, forall fuel, 4 * B2R len <= INR fuel * B2R minStep ->
      f_path_valid xy interp inside distance lb ub minSafe minStep fuel init len = Ok (b, r).
Proof. intros St xy interp inside distance lb ub minSafe minStep init len Fs Bs Fm Hm Fl Hl HL Def. exact (path_ends xy interp inside distance lb ub minSafe minStep Fs Bs Fm (proj1 Hm) (proj2 Hm) len Fl (proj1 Hl) (proj2 Hl) HL Def init). Qed.
Print Assumptions C123_terminates_partial.

(** [h s] is the clearance of the path after the length [s], which changes no faster than the length, and [eps] the error of what the map reports of
    it, for the states that are interpolated. If the initial state is valid then the ratio reported is within 0 and 1, it is 1 if the path is
    accepted, and the path keeps, up to the ratio, the required clearance up to the interpolation distance, [eps], and 2^-21 of its length. *)
Theorem C123_clearance_partial :
  forall St (xy : St -> double * double) interp inside distance lb ub (minSafe minStep : single) (init : St) (len : double) (h : R -> R) (eps : R) fuel b r,
    is_finite minSafe = true -> Rabs (B2R minSafe) <= bpow radix2 100 -> is_finite minStep = true -> 0 < B2R minStep <= bpow radix2 100 ->
    is_finite len = true -> 0 < B2R len <= bpow radix2 100 ->
    (forall s t, 0 <= s <= B2R len -> 0 <= t <= B2R len -> h s - h t <= Rabs (s - t)) ->
    (forall (q : double) x d, is_finite q = true -> 0 <= B2R q <= 1 -> interp q = Ok x -> inside x = Ok true -> distance x = Ok d ->
       is_finite d = true /\ Rabs (B2R d) <= bpow radix2 100 /\ B2R d <= h (B2R q * B2R len) + eps) ->
    interp (d_div d_zero len) = Ok init -> f_state_valid inside distance minSafe init = Ok true ->
    f_path_valid xy interp inside distance lb ub minSafe minStep fuel init len = Ok (b, r) ->
    is_finite r = true /\ 0 <= B2R r <= 1 /\ (b = true -> B2R r = 1) /\
    forall s, 0 <= s <= B2R r * B2R len -> B2R minSafe - B2R minStep - eps - bpow radix2 (-21) * B2R len <= h s.
Proof.
  intros St xy interp inside distance lb ub minSafe minStep init len h eps fuel b r Fs Bs Fm Hm Fl Hl Hh Hd Hi Hv H.
  apply (obstacle_clear xy interp inside distance lb ub minSafe minStep Fs Bs Fm (proj1 Hm) (proj2 Hm) len Fl (proj1 Hl) (proj2 Hl) h eps fuel init); assumption.
Qed.
Print Assumptions C123_clearance_partial.

(** It also keeps within the bounds of the state space, up to the same: [px s] and [py s] are the position after the length [s], and [eps] the error of the
    states that are interpolated. *)
Theorem C123_border_partial :
  forall St (xy : St -> double * double) interp inside distance lb ub (minSafe minStep : single) (init : St) (len : double) (px py : R -> R) (eps : R) fuel b r,
    is_finite minSafe = true -> Rabs (B2R minSafe) <= bpow radix2 100 -> is_finite minStep = true -> bpow radix2 (-125) <= B2R minStep <= bpow radix2 100 ->
    is_finite len = true -> 0 < B2R len <= bpow radix2 100 ->
    Forall (fun z : double => is_finite z = true /\ Rabs (B2R z) <= bpow radix2 99) [fst lb; snd lb; fst ub; snd ub] ->
    (forall s t, 0 <= s <= B2R len -> 0 <= t <= B2R len -> Rabs (px s - px t) <= Rabs (s - t) /\ Rabs (py s - py t) <= Rabs (s - t)) ->
    (forall (q : double) x, is_finite q = true -> 0 <= B2R q <= 1 -> interp q = Ok x -> inside x = Ok true ->
       is_finite (fst (xy x)) = true /\ is_finite (snd (xy x)) = true /\
       B2R (fst lb) <= B2R (fst (xy x)) <= B2R (fst ub) /\ B2R (snd lb) <= B2R (snd (xy x)) <= B2R (snd ub) /\
       Rabs (B2R (fst (xy x)) - px (B2R q * B2R len)) <= eps /\ Rabs (B2R (snd (xy x)) - py (B2R q * B2R len)) <= eps) ->
    (forall (q : double) x d, is_finite q = true -> 0 <= B2R q <= 1 -> interp q = Ok x -> inside x = Ok true -> distance x = Ok d ->
       is_finite d = true /\ Rabs (B2R d) <= bpow radix2 100) ->
    interp (d_div d_zero len) = Ok init -> f_state_valid inside distance minSafe init = Ok true ->
    f_path_valid xy interp inside distance lb ub minSafe minStep fuel init len = Ok (b, r) ->
    forall s, 0 <= s <= B2R r * B2R len ->
      let slack := B2R minStep + eps + bpow radix2 (-21) * B2R len in
      B2R (fst lb) - slack <= px s <= B2R (fst ub) + slack /\ B2R (snd lb) - slack <= py s <= B2R (snd ub) + slack.
Proof.
  intros St xy interp inside distance lb ub minSafe minStep init len px py eps fuel b r Fs Bs Fm Hm Fl Hl HF Hp Hx Hd Hi Hv H.
  apply Forall_cons_iff in HF as [F1 HF]. apply Forall_cons_iff in HF as [F2 HF]. apply Forall_cons_iff in HF as [F3 HF]. apply Forall_cons_iff in HF as [F4 _].
  assert (Pm : 0 < B2R minStep) by (eapply Rlt_le_trans; [apply (bpow_gt_0 radix2 (-125))|apply Hm]).
  apply (border_clear xy interp inside distance lb ub minSafe minStep Fs Bs Fm Pm (proj2 Hm) len Fl (proj1 Hl) (proj2 Hl) px py eps fuel init b r (proj1 Hm)); assumption.
Qed.
Print Assumptions C123_border_partial.

(** Non-vacuity: a path of length 8 at the distance 3 of an obstacle, whose required clearance is 2, is accepted after eight rounds; the clearance is the
    constant 3 and is reported exactly. *)
Definition three (_ : double) : res single := Ok (s_of 3 0).
Lemma three_val : B2R (s_of 3 0) = 3.
Proof. apply (CoordsFloat_proofs.of_int_real 3). lia. Qed.
Lemma eight_val : B2R (d_of 8 0) = 8.
Proof.
  change (F2R (Float radix2 4503599627370496 (-49)) = 8). unfold F2R. cbn [Fnum Fexp]. change (bpow radix2 (-49)) with (/ 562949953421312). field.
Qed.
Example C123_instance :
  (match f_path_valid origin_xy line anywhere three far_low far_high (s_of 2 0) (s_of 1 (-1)) 8 d_zero (d_of 8 0) with Ok (true, _) => True | _ => False end) /\
  (forall (q : double) x d, is_finite q = true -> 0 <= B2R q <= 1 -> line q = Ok x -> anywhere x = Ok true -> three x = Ok d ->
     is_finite d = true /\ Rabs (B2R d) <= bpow radix2 100 /\ B2R d <= (fun _ => 3) (B2R q * B2R (d_of 8 0)) + 0) /\
  (exists B, B2R (s_of 2 0) - B2R (s_of 1 (-1)) - 0 - bpow radix2 (-21) * B2R (d_of 8 0) = B /\ 1 < B).
Proof.
  split; [vm_compute; exact I|]. split.
  - intros q x d _ _ _ _ H. assert (d = s_of 3 0) as -> by (unfold three in H; congruence). split; [reflexivity|]. rewrite three_val. split; [|lra].
    rewrite Rabs_pos_eq by lra. apply Rle_trans with (bpow radix2 2); [cbn; lra|apply bpow_le; lia].
  - eexists. split; [reflexivity|]. rewrite eight_val, (proj2 (CoordsFloat_proofs.of_int_real 2 ltac:(lia))).
    assert (H : B2R (s_of 1 (-1)) = / 2).
    { change (F2R (Float radix2 8388608 (-24)) = / 2). unfold F2R. cbn [Fnum Fexp]. change (bpow radix2 (-24)) with (/ 16777216). field. }
    rewrite H. change (bpow radix2 (-21)) with (/ 2097152). lra.
Qed.
(** For the bounds: the same path, seen as a manoeuvre near the origin, whose true position is off by at most 1/2 from the one interpolated. *)
Example C123_border_instance :
  Forall (fun z : double => is_finite z = true /\ Rabs (B2R z) <= bpow radix2 99) [fst far_low; snd far_low; fst far_high; snd far_high] /\
  (forall q x : double, is_finite q = true -> 0 <= B2R q <= 1 -> line q = Ok x -> anywhere x = Ok true ->
     B2R (fst far_low) <= B2R (fst (origin_xy x)) <= B2R (fst far_high) /\
     Rabs (B2R (fst (origin_xy x)) - (fun s => s / 16) (B2R q * B2R (d_of 8 0))) <= / 2).
Proof.
  assert (H : B2R (d_of 1 60) = bpow radix2 60 /\ B2R (d_of (-1) 60) = - bpow radix2 60).
  { split.
    - change (F2R (Float radix2 4503599627370496 8) = 1152921504606846976). unfold F2R. cbn [Fnum Fexp]. change (bpow radix2 8) with 256. ring.
    - change (F2R (Float radix2 (-4503599627370496) 8) = - 1152921504606846976). unfold F2R. cbn [Fnum Fexp]. change (bpow radix2 8) with 256. ring. }
  destruct H as [H1 H2]. assert (P : 0 < bpow radix2 60) by apply bpow_gt_0. assert (Q : bpow radix2 60 <= bpow radix2 99) by (apply bpow_le; lia). split.
  - repeat apply Forall_cons; try apply Forall_nil; unfold far_low, far_high; cbn [fst snd]; (split; [reflexivity|]); rewrite ?H1, ?H2, ?Rabs_Ropp, Rabs_pos_eq; lra.
  - intros q x _ Hq _ _. unfold far_low, far_high, origin_xy. cbn [fst snd]. rewrite H1, H2. change (B2R d_zero) with 0. split; [lra|].
    rewrite eight_val. apply Rabs_le. lra.
Qed.

(** A path of length zero is accepted exactly if its only state is within the bounds and the map and keeps the required distance; the ratio stored is one. *)
Theorem C123_standing : forall St (xy : St -> double * double) interp inside distance lb ub (minSafe minStep : single) fuel init (len : double) i (d : single),
  is_finite len = true -> B2R len = 0 -> inside init = Ok i -> distance init = Ok d -> is_finite d = true -> is_finite minSafe = true ->
  exists b, f_path_valid xy interp inside distance lb ub minSafe minStep fuel init len = Ok (b, s_of 1 0) /\ (b = true <-> i = true /\ B2R minSafe <= B2R d).
Proof.
  intros St xy interp inside distance lb ub minSafe minStep fuel init len i d F Z Hi Hd Fd Fm. unfold f_path_valid. assert (E : Beqb len d_zero = true) by (rewrite Beqb_correct by auto; rewrite Z; now apply Req_bool_true). rewrite E.
  unfold f_state_valid. rewrite Hi. cbn [bind]. destruct i.
  - rewrite Hd. cbn [bind]. exists (Bleb minSafe d). split; [reflexivity|]. rewrite (sleb minSafe d Fm Fd). tauto.
  - exists false. cbn [bind]. split; [reflexivity|]. split; [discriminate|intros [X _]; discriminate X].
Qed.
Print Assumptions C123_standing.
Example C123_standing_met : is_finite d_zero = true /\ B2R d_zero = 0 /\ anywhere d_zero = Ok true /\ first_tenth d_zero = Ok (s_of 1 0).
Proof. repeat split. Qed.
