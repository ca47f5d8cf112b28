(** Hybrid A*: cells and steering angles. *)
From Coq Require Import Reals Lra Psatz.
From Verif Require Import Base RealBase Grid_model Coords_model Coords_proofs Pose_model Pose_spec Pose_proofs Bicycle_model Bicycle_proofs Hybrid_model Hybrid_spec.
From Coq Require Import ZifyBool ZifyNat ZifyN.
Local Open Scope R_scope.

Lemma PI_bounds : 3 < PI < 7 / 2.
Proof.
  split; [pose proof PI2_3_2; lra|]. pose proof (PI_ineq 2) as [_ H]. unfold sum_f_R0, tg_alt, PI_tg in H. cbn in H. lra.
Qed.

Lemma trunc_down x n : 0 <= x -> IZR n <= x < IZR n + 1 -> Rtrunc x = n.
Proof. intros H1 H2. unfold Rtrunc. destruct (Rle_dec 0 x); [|contradiction]. now apply Rfloor_unique. Qed.
Lemma trunc_up x n : x < 0 -> IZR n - 1 < x <= IZR n -> Rtrunc x = n.
Proof.
  intros H1 H2. destruct (Rtrunc_spec x) as [(? & _)|(_ & H & _)]; [exfalso; lra|].
  assert (IZR n < IZR (Rtrunc x) + 1 /\ IZR (Rtrunc x) < IZR n + 1) as [A B] by lra. rewrite <- plus_IZR in A, B. apply lt_IZR in A, B. lia.
Qed.

(** ** The heading of a cell *)
Lemma above_test t : Rltb PI (IZR t) = (4 <=? t)%Z.
Proof.
  pose proof PI_bounds. destruct (Z.leb_spec 4 t) as [H0|H0], (Rltb_spec PI (IZR t)) as [H1|H1]; auto; exfalso.
  - apply IZR_le in H0. lra.
  - assert (t <= 3)%Z as K by lia. apply IZR_le in K. lra.
Qed.
Lemma below_test t : Rltb (IZR t) (- PI) = (t <=? -4)%Z.
Proof.
  pose proof PI_bounds. destruct (Z.leb_spec t (-4)) as [H0|H0], (Rltb_spec (IZR t) (- PI)) as [H1|H1]; auto; exfalso.
  - apply IZR_le in H0. lra.
  - assert (-3 <= t)%Z as K by lia. apply IZR_le in K. lra.
Qed.
Lemma above_step t : (4 <= t)%Z -> Rtrunc (IZR t - 2 * PI) = (if t <? 7 then t - 6 else t - 7)%Z.
Proof.
  intros H. pose proof PI_bounds. destruct (Z.ltb_spec t 7) as [L|L].
  - assert (t <= 6)%Z as K by lia. apply IZR_le in K. apply trunc_up; [lra|]. rewrite minus_IZR. lra.
  - apply IZR_le in L. apply trunc_down; [lra|]. rewrite minus_IZR. lra.
Qed.
Lemma below_step t : (t <= -4)%Z -> Rtrunc (IZR t + 2 * PI) = (if -7 <? t then t + 6 else t + 7)%Z.
Proof.
  intros H. pose proof PI_bounds. destruct (Z.ltb_spec (-7) t) as [L|L].
  - assert (-6 <= t)%Z as K by lia. apply IZR_le in K. apply trunc_down; [lra|]. rewrite plus_IZR. lra.
  - apply IZR_le in L. apply trunc_up; [lra|]. rewrite plus_IZR. lra.
Qed.

(** Residues modulo seven, with values from -2 to 3. *)
Definition seven (t : Z) : Z := (let r := t mod 7 in if r <=? 3 then r else r - 6)%Z.

Lemma int_above_spec n : forall t, (0 <= t <= Z.of_nat n)%Z -> int_above n t = seven t.
Proof.
  induction n as [|k IH]; intros t H; cbn [int_above].
  - assert (t = 0)%Z as -> by lia. reflexivity.
  - rewrite above_test. destruct (Z.leb_spec 4 t) as [L|L].
    + rewrite above_step by lia. destruct (Z.ltb_spec t 7) as [K|K].
      * assert (t = 4 \/ t = 5 \/ t = 6)%Z as [->|[->| ->]] by lia; unfold seven; destruct k; cbn [int_above]; rewrite ?above_test; reflexivity.
      * rewrite IH by lia. unfold seven. assert ((t - 7) mod 7 = t mod 7)%Z as -> by (rewrite <- (Z.mod_add (t - 7) 1 7) by lia; f_equal; lia). reflexivity.
    + unfold seven. rewrite Z.mod_small by lia. destruct (Z.leb_spec t 3); lia.
Qed.
Lemma int_below_spec n : forall t, (0 <= - t <= Z.of_nat n)%Z -> int_below n t = (- seven (- t))%Z.
Proof.
  induction n as [|k IH]; intros t H; cbn [int_below].
  - assert (t = 0)%Z as -> by lia. reflexivity.
  - rewrite below_test. destruct (Z.leb_spec t (-4)) as [L|L].
    + rewrite below_step by lia. destruct (Z.ltb_spec (-7) t) as [K|K].
      * assert (t = -4 \/ t = -5 \/ t = -6)%Z as [->|[->| ->]] by lia; unfold seven; destruct k; cbn [int_below]; rewrite ?below_test; reflexivity.
      * rewrite IH by lia. unfold seven. assert ((- (t + 7)) mod 7 = (- t) mod 7)%Z as -> by (rewrite <- (Z.mod_add (- (t + 7)) 1 7) by lia; f_equal; lia). reflexivity.
    + unfold seven. rewrite Z.mod_small by lia. destruct (Z.leb_spec (- t) 3); lia.
Qed.
Lemma above_low n t : (t <= 3)%Z -> int_above n t = t.
Proof. intros H. destruct n; cbn [int_above]; auto. rewrite above_test. destruct (Z.leb_spec 4 t); [lia|reflexivity]. Qed.
Lemma below_high n t : (-3 <= t)%Z -> int_below n t = t.
Proof. intros H. destruct n; cbn [int_below]; auto. rewrite below_test. destruct (Z.leb_spec t (-4)); [lia|reflexivity]. Qed.
Lemma seven_range t : (-2 <= seven t <= 3)%Z.
Proof. unfold seven. pose proof (Z.mod_pos_bound t 7 ltac:(lia)). destruct (Z.leb_spec (t mod 7) 3); lia. Qed.

Lemma int_wrap_spec t : int_wrap t = (if 0 <=? t then seven t else - seven (- t))%Z.
Proof.
  unfold int_wrap. destruct (Z.leb_spec 0 t) as [H|H].
  - rewrite int_above_spec by lia. apply below_high. pose proof (seven_range t). lia.
  - rewrite above_low by lia. apply int_below_spec. lia.
Qed.
Lemma int_wrap_range t : (-3 <= int_wrap t <= 3)%Z.
Proof. rewrite int_wrap_spec. pose proof (seven_range t). pose proof (seven_range (- t)). destruct (0 <=? t)%Z; lia. Qed.
Lemma int_wrap_small t : (-3 <= t <= 3)%Z -> int_wrap t = t.
Proof. intros H. rewrite int_wrap_spec. unfold seven. destruct (Z.leb_spec 0 t); rewrite Z.mod_small by lia; match goal with |- context [Z.leb ?a ?b] => destruct (Z.leb_spec a b) end; lia. Qed.
(** The iterations of the model are enough: with more, the result is the same. *)
Lemma int_wrap_fuel t n : (Z.to_nat (Z.abs t) <= n)%nat -> int_below n (int_above n t) = int_wrap t.
Proof.
  intros Hn. rewrite int_wrap_spec. destruct (Z.leb_spec 0 t) as [H|H].
  - rewrite int_above_spec by lia. apply below_high. pose proof (seven_range t). lia.
  - rewrite above_low by lia. apply int_below_spec. lia.
Qed.

(** ** C52 *)
Lemma trunc_same x y : Rtrunc x = Rtrunc y -> Rabs (x - y) < 2 /\ (0 <= x * y -> Rabs (x - y) < 1).
Proof.
  intros E. destruct (Rtrunc_spec x) as [(A & B & C)|(A & B & C)], (Rtrunc_spec y) as [(A' & B' & C')|(A' & B' & C')]; rewrite <- E in *.
  - split; intros; apply Rabs_def1; lra.
  - assert (Rtrunc x = 0)%Z as E0 by lia. rewrite E0 in *. split; intros; [apply Rabs_def1; lra|]. assert (x = 0) by nra. apply Rabs_def1; lra.
  - assert (Rtrunc x = 0)%Z as E0 by lia. rewrite E0 in *. split; intros; [apply Rabs_def1; lra|]. assert (y = 0) by nra. apply Rabs_def1; lra.
  - split; intros; apply Rabs_def1; lra.
Qed.

Lemma discretize_inv m p c : discretize m p = Ok c -> ix c = Rtrunc (px p / hp_res m) /\ iy c = Rtrunc (py p / hp_res m) /\ ith c = int_wrap (Rtrunc (wrap_theta (pth p) / hp_ang m)).
Proof.
  unfold discretize. destruct (cast_int (px p / hp_res m)) as [x| | |] eqn:Ex; try discriminate. destruct (cast_int (py p / hp_res m)) as [y| | |] eqn:Ey; try discriminate.
  destruct (cast_int (wrap_theta (pth p) / hp_ang m)) as [t| | |] eqn:Et; try discriminate. cbn [bind]. intros E. assert (c = IPose x y (int_wrap t)) as -> by congruence.
  apply cast_int_ok in Ex, Ey, Et. destruct Ex as [-> _], Ey as [-> _], Et as [-> _]. auto.
Qed.

Lemma scaled_diff r a b k : 0 < r -> Rabs (a / r - b / r) < k -> Rabs (a - b) < k * r.
Proof.
  intros Hr H. replace (a - b) with ((a / r - b / r) * r) by (field; lra). rewrite Rabs_mult, (Rabs_right r) by lra. now apply Rmult_lt_compat_r.
Qed.
Lemma scaled_sign r a b : 0 < r -> 0 <= a * b -> 0 <= a / r * (b / r).
Proof. intros Hr H. replace (a / r * (b / r)) with (a * b * (/ r * / r)) by (field; lra). assert (0 < / r) by (now apply Rinv_0_lt_compat). apply Rmult_le_pos; nra. Qed.

Lemma cell_positions m a b c : 0 < hp_res m -> discretize m a = Ok c -> discretize m b = Ok c ->
  Rabs (px a - px b) < 2 * hp_res m /\ Rabs (py a - py b) < 2 * hp_res m /\
  (0 <= px a * px b -> Rabs (px a - px b) < hp_res m) /\ (0 <= py a * py b -> Rabs (py a - py b) < hp_res m).
Proof.
  intros Hr Ea Eb. apply discretize_inv in Ea as (X & Y & _), Eb as (X' & Y' & _).
  destruct (trunc_same (px a / hp_res m) (px b / hp_res m)) as [A1 A2]; [congruence|]. destruct (trunc_same (py a / hp_res m) (py b / hp_res m)) as [B1 B2]; [congruence|].
  split; [now apply scaled_diff|]. split; [now apply scaled_diff|].
  split; intros H; rewrite <- (Rmult_1_l (hp_res m)); apply scaled_diff; auto; [apply A2|apply B2]; now apply scaled_sign.
Qed.

Lemma cell_headings m a b c : 0 < hp_ang m -> discretize m a = Ok c -> discretize m b = Ok c ->
  Rabs (wrap_theta (pth a)) < 4 * hp_ang m -> Rabs (wrap_theta (pth b)) < 4 * hp_ang m ->
  heading_within (2 * hp_ang m) (pth a) (pth b) /\ (0 <= wrap_theta (pth a) * wrap_theta (pth b) -> heading_within (hp_ang m) (pth a) (pth b)).
Proof.
  intros Hr Ea Eb Sa Sb. apply discretize_inv in Ea as (_ & _ & T), Eb as (_ & _ & T').
  assert (Small : forall x, Rabs x < 4 * hp_ang m -> int_wrap (Rtrunc (x / hp_ang m)) = Rtrunc (x / hp_ang m)).
  { intros x H. apply int_wrap_small. assert (K : Rabs (x / hp_ang m) < 4).
    { unfold Rdiv. rewrite Rabs_mult, Rabs_inv, (Rabs_right (hp_ang m)) by lra. apply (Rmult_lt_reg_r (hp_ang m)); auto. rewrite Rmult_assoc, Rinv_l by lra. lra. }
    apply Rabs_def2 in K. destruct (Rtrunc_spec (x / hp_ang m)) as [(A & B & C)|(A & B & C)].
    - assert (IZR (Rtrunc (x / hp_ang m)) < 4) as L by lra. apply lt_IZR in L. lia.
    - assert (-4 < IZR (Rtrunc (x / hp_ang m))) as L by lra. apply lt_IZR in L. lia. }
  rewrite Small in T, T' by auto. destruct (trunc_same (wrap_theta (pth a) / hp_ang m) (wrap_theta (pth b) / hp_ang m)) as [A1 A2]; [congruence|].
  assert (W : forall d, Rabs (wrap_theta (pth a) - wrap_theta (pth b)) < d -> heading_within d (pth a) (pth b)).
  { intros d H. destruct (wrap_same (pth a)) as [ka Ka], (wrap_same (pth b)) as [kb Kb]. exists (ka - kb)%Z. rewrite minus_IZR.
    replace (pth a - pth b + 2 * PI * (IZR ka - IZR kb)) with (wrap_theta (pth a) - wrap_theta (pth b)); [exact H|]. lra. }
  split; [apply W; now apply scaled_diff|]. intros H. apply W. rewrite <- (Rmult_1_l (hp_ang m)). apply scaled_diff; auto. apply A2. now apply scaled_sign.
Qed.

Lemma cast_0 : cast_int 0 = Ok 0%Z.
Proof. apply (cast_IZR 0). unfold is_int, int_min, int_max. lia. Qed.

Lemma headings_alias m : 0 < hp_ang m -> 7 * hp_ang m <= PI -> exists a b c, discretize m a = Ok c /\ discretize m b = Ok c /\ ~ close m a b.
Proof.
  intros Ha H7. exists (Pose 0 0 0), (Pose 0 0 (7 * hp_ang m)), (IPose 0 0 0). unfold discretize. cbn [px py pth]. unfold Rdiv. rewrite Rmult_0_l, cast_0. cbn [bind].
  rewrite !wrap_keep by lra. rewrite Rmult_0_l, cast_0. cbn [bind]. replace (7 * hp_ang m * / hp_ang m) with (IZR 7) by (field; lra).
  rewrite cast_IZR by (unfold is_int, int_min, int_max; lia). cbn [bind]. rewrite !int_wrap_spec. split; [reflexivity|]. split; [reflexivity|].
  intros (_ & _ & k & K). cbn [pth] in K. apply Rabs_def2 in K.
  assert (k = 0 \/ k <= -1 \/ 1 <= k)%Z as [->|[E|E]] by lia; [lra| |]; apply IZR_le in E; nra.
Qed.

Lemma positions_alias m : 0 < hp_res m -> exists a b c, pth a = 0 /\ pth b = 0 /\ discretize m a = Ok c /\ discretize m b = Ok c /\ ~ close m a b.
Proof.
  intros Hr. exists (Pose (- (9 / 10) * hp_res m) 0 0), (Pose (9 / 10 * hp_res m) 0 0), (IPose 0 0 0). split; [reflexivity|]. split; [reflexivity|]. unfold discretize. cbn [px py pth].
  replace (- (9 / 10) * hp_res m / hp_res m) with (- (9 / 10)) by (field; lra). replace (9 / 10 * hp_res m / hp_res m) with (9 / 10) by (field; lra).
  assert (E1 : cast_int (- (9 / 10)) = Ok 0%Z) by (apply cast_int_ok; split; [symmetry; apply trunc_up; lra|unfold is_int, int_min, int_max; lia]).
  assert (E2 : cast_int (9 / 10) = Ok 0%Z) by (apply cast_int_ok; split; [symmetry; apply trunc_down; lra|unfold is_int, int_min, int_max; lia]).
  rewrite E1, E2. unfold Rdiv. rewrite !Rmult_0_l, cast_0. cbn [bind]. pose proof PI_bounds. rewrite wrap_keep by lra. rewrite Rmult_0_l, cast_0. cbn [bind]. split; [reflexivity|]. split; [reflexivity|].
  intros (K & _). cbn [px] in K. apply Rabs_def2 in K. lra.
Qed.

(** ** C55 *)
Lemma hp_max_spec m : 0 < hp_wheelbase m -> 0 < hp_radius m -> 0 < hp_max m < PI / 2 /\ tan (hp_max m) = hp_wheelbase m / hp_radius m.
Proof.
  intros Hw Hr. destruct (steering_radius (hp_model m) (hp_radius m)) as [H _]; [exact Hw|cbn; rewrite Rabs_R0; exact Hr|]. split; [exact H|].
  unfold hp_max, steering_from_radius. cbn [hp_model rear_to_center wheelbase]. destruct (Rltb_spec (hp_radius m) 0); [exfalso; lra|]. rewrite tan_atan.
  replace (hp_radius m ^ 2 - 0 ^ 2) with (hp_radius m * hp_radius m) by ring. now rewrite sqrt_square by lra.
Qed.

Lemma deltas_in m d : In d (deltas m) <-> d = 0 \/ exists i, (i < hp_motions m / 2)%nat /\ (d = (INR i + 1) / 2 * hp_max m \/ d = - ((INR i + 1) / 2 * hp_max m)).
Proof.
  unfold deltas. cbn [In]. rewrite in_flat_map. split.
  - intros [<-|(i & I & [<-|[<-|[]]])]; auto; right; exists i; apply in_seq in I; split; auto; lia.
  - intros [->|(i & I & E)]; [now left|right]. exists i. split; [apply in_seq; lia|]. cbn. destruct E as [->| ->]; auto.
Qed.

Lemma deltas_bounded m d : 0 <= hp_max m -> (hp_motions m <= 5)%nat -> In d (deltas m) -> Rabs d <= hp_max m.
Proof.
  intros Hm Hn I. apply deltas_in in I as [->|(i & Hi & E)]; [rewrite Rabs_R0; exact Hm|].
  assert (i <= 1)%nat as L. { assert (hp_motions m / 2 <= 2)%nat by (apply (Nat.div_le_mono _ 5 2); lia). lia. }
  apply le_INR in L. cbn in L. pose proof (pos_INR i). destruct E as [->| ->]; apply Rabs_le; nra.
Qed.

Lemma deltas_exceed m : 0 < hp_max m -> (6 <= hp_motions m)%nat -> exists d, In d (deltas m) /\ d = 3 / 2 * hp_max m.
Proof.
  intros Hm Hn. exists (3 / 2 * hp_max m). split; auto. apply deltas_in. right. exists 2%nat. split.
  - assert (3 <= hp_motions m / 2)%nat by (apply (Nat.div_le_mono 6 _ 2); lia). lia.
  - left. cbn. lra.
Qed.

Lemma deltas_max m : (4 <= hp_motions m)%nat -> In (hp_max m) (deltas m) /\ In (- hp_max m) (deltas m).
Proof.
  intros Hn. assert (2 <= hp_motions m / 2)%nat by (apply (Nat.div_le_mono 4 _ 2); lia).
  split; apply deltas_in; right; exists 1%nat; (split; [lia|]); cbn; [left|right]; lra.
Qed.
