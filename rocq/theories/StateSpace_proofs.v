(** Bounds of the state spaces. *)
From Coq Require Import Reals Lra.
From Verif Require Import Base RealBase Coords_model Pose_model StateSpace_model.
Local Open Scope R_scope.

Lemma clamp_in_ok x lo hi : lo <= hi -> exists y, clamp_in x lo hi = Ok y /\ lo <= y <= hi /\ (lo <= x <= hi -> y = x) /\
  (forall z, lo <= z <= hi -> Rabs (x - y) <= Rabs (x - z)).
Proof.
  intros H. unfold clamp_in. destruct (Rltb_spec hi lo); [exfalso; lra|].
  destruct (Rltb_spec x lo); [|destruct (Rltb_spec hi x)]; eexists; (split; [reflexivity|]); (split; [lra|]); (split; [lra|]); intros z Hz; unfold Rabs;
    repeat destruct Rcase_abs; lra.
Qed.

Lemma ltb_out x lo hi : lo <= x <= hi <-> (Rltb x lo || Rltb hi x = false)%bool.
Proof. destruct (Rltb_spec x lo), (Rltb_spec hi x); cbn; split; intros; try lra; try discriminate; auto. Qed.

Lemma r2_validate_iff lb ub s : r2_validate lb ub s = true <-> fst lb <= fst s <= fst ub /\ snd lb <= snd s <= snd ub.
Proof.
  unfold r2_validate. rewrite !ltb_out. destruct (_ || _)%bool; [split; [discriminate|intros [? _]; discriminate]|].
  destruct (_ || _)%bool; split; auto; try discriminate. intros [_ ?]; discriminate.
Qed.

Lemma se2_validate_iff lb ub s : se2_validate lb ub s = true <->
  px lb <= px s <= px ub /\ py lb <= py s <= py ub /\ pth lb <= pth s <= pth ub.
Proof.
  unfold se2_validate. rewrite !ltb_out. destruct (_ || _)%bool; [split; [discriminate|intros [? _]; discriminate]|].
  destruct (_ || _)%bool; [split; [discriminate|intros (_ & ? & _); discriminate]|].
  destruct (_ || _)%bool; split; auto; try discriminate. intros (_ & _ & ?); discriminate.
Qed.

Lemma r2_enforce_ok lb ub s : fst lb <= fst ub -> snd lb <= snd ub ->
  exists s', r2_enforce lb ub s = Ok s' /\ r2_validate lb ub s' = true /\ (r2_validate lb ub s = true -> s' = s) /\
    r2_enforce lb ub s' = Ok s' /\
    (forall z, r2_validate lb ub z = true -> Rabs (fst s - fst s') <= Rabs (fst s - fst z) /\ Rabs (snd s - snd s') <= Rabs (snd s - snd z)).
Proof.
  intros Hx Hy. unfold r2_enforce.
  destruct (clamp_in_ok (fst s) (fst lb) (fst ub) Hx) as (x & -> & X1 & X2 & X3). cbn [bind].
  destruct (clamp_in_ok (snd s) (snd lb) (snd ub) Hy) as (y & -> & Y1 & Y2 & Y3). cbn [bind].
  exists (x, y). split; auto. split; [apply r2_validate_iff; cbn; auto|]. split.
  { intros V. apply r2_validate_iff in V. destruct s; cbn in *. f_equal; [apply X2|apply Y2]; tauto. }
  split.
  { cbn. destruct (clamp_in_ok x (fst lb) (fst ub) Hx) as (x' & -> & _ & E & _). cbn [bind].
    destruct (clamp_in_ok y (snd lb) (snd ub) Hy) as (y' & -> & _ & F & _). cbn [bind]. rewrite E, F; auto. }
  intros z V. apply r2_validate_iff in V. cbn. split; [apply X3|apply Y3]; tauto.
Qed.

Lemma se2_enforce_ok lb ub s : px lb <= px ub -> py lb <= py ub -> pth lb <= pth ub ->
  exists s', se2_enforce lb ub s = Ok s' /\ se2_validate lb ub s' = true /\ (se2_validate lb ub s = true -> s' = s) /\
    se2_enforce lb ub s' = Ok s' /\
    (forall z, se2_validate lb ub z = true -> Rabs (px s - px s') <= Rabs (px s - px z) /\ Rabs (py s - py s') <= Rabs (py s - py z) /\
       Rabs (pth s - pth s') <= Rabs (pth s - pth z)).
Proof.
  intros Hx Hy Ht. unfold se2_enforce.
  destruct (clamp_in_ok (px s) (px lb) (px ub) Hx) as (x & -> & X1 & X2 & X3). cbn [bind].
  destruct (clamp_in_ok (py s) (py lb) (py ub) Hy) as (y & -> & Y1 & Y2 & Y3). cbn [bind].
  destruct (clamp_in_ok (pth s) (pth lb) (pth ub) Ht) as (t & -> & T1 & T2 & T3). cbn [bind].
  exists (Pose x y t). split; auto. split; [apply se2_validate_iff; cbn; auto|]. split.
  { intros V. apply se2_validate_iff in V. destruct s; cbn in *. f_equal; [apply X2|apply Y2|apply T2]; tauto. }
  split.
  { cbn. destruct (clamp_in_ok x (px lb) (px ub) Hx) as (x' & -> & _ & E & _). cbn [bind].
    destruct (clamp_in_ok y (py lb) (py ub) Hy) as (y' & -> & _ & F & _). cbn [bind].
    destruct (clamp_in_ok t (pth lb) (pth ub) Ht) as (t' & -> & _ & G & _). cbn [bind]. rewrite E, F, G; auto. }
  intros z V. apply se2_validate_iff in V. cbn. split; [apply X3; tauto|]. split; [apply Y3|apply T3]; tauto.
Qed.

Lemma uniform_range lb ub u : lb <= ub -> 0 <= u <= 1 -> lb <= sample_uniform lb ub u <= ub.
Proof. intros H [A B]. unfold sample_uniform. nra. Qed.

Lemma uniform_onto lb ub x : lb <= x <= ub -> exists u, 0 <= u <= 1 /\ sample_uniform lb ub u = x.
Proof.
  intros H. unfold sample_uniform. destruct (Req_dec lb ub) as [E|E].
  - exists 0. split; lra.
  - exists ((x - lb) / (ub - lb)). split; [|field; lra]. split.
    + apply Rmult_le_pos; [lra|]. left. apply Rinv_0_lt_compat. lra.
    + apply (Rmult_le_reg_r (ub - lb)); [lra|]. unfold Rdiv. rewrite Rmult_assoc, Rinv_l; lra.
Qed.

Lemma r2_uniform_ok lb ub u : fst lb <= fst ub -> snd lb <= snd ub -> 0 <= fst u <= 1 -> 0 <= snd u <= 1 ->
  r2_validate lb ub (r2_sample_uniform lb ub u) = true.
Proof. intros. apply r2_validate_iff. cbn. split; now apply uniform_range. Qed.

Lemma se2_uniform_ok lb ub u : px lb <= px ub -> py lb <= py ub -> pth lb <= pth ub -> 0 <= px u <= 1 -> 0 <= py u <= 1 -> 0 <= pth u <= 1 ->
  se2_validate lb ub (se2_sample_uniform lb ub u) = true.
Proof. intros. apply se2_validate_iff. cbn. repeat split; now apply uniform_range. Qed.

Lemma r2_uniform_onto lb ub s : r2_validate lb ub s = true ->
  exists u, 0 <= fst u <= 1 /\ 0 <= snd u <= 1 /\ r2_sample_uniform lb ub u = s.
Proof.
  intros V. apply r2_validate_iff in V. destruct V as [A B]. destruct (uniform_onto _ _ _ A) as (u & U & E), (uniform_onto _ _ _ B) as (v & V & F).
  exists (u, v). cbn. unfold r2_sample_uniform. cbn. rewrite E, F. destruct s. auto.
Qed.

Lemma se2_uniform_onto lb ub s : se2_validate lb ub s = true ->
  exists u, 0 <= px u <= 1 /\ 0 <= py u <= 1 /\ 0 <= pth u <= 1 /\ se2_sample_uniform lb ub u = s.
Proof.
  intros V. apply se2_validate_iff in V. destruct V as (A & B & D).
  destruct (uniform_onto _ _ _ A) as (u & U & E), (uniform_onto _ _ _ B) as (v & V & F), (uniform_onto _ _ _ D) as (w & W & G).
  exists (Pose u v w). cbn. unfold se2_sample_uniform. cbn. rewrite E, F, G. destruct s. auto.
Qed.

Lemma r2_gaussian_ok lb ub mean dev g : fst lb <= fst ub -> snd lb <= snd ub ->
  exists s, r2_sample_gaussian lb ub mean dev g = Ok s /\ r2_validate lb ub s = true.
Proof.
  intros A B. unfold r2_sample_gaussian. edestruct (r2_enforce_ok lb ub) as (s & E & V & _); eauto.
Qed.

Lemma se2_gaussian_ok lb ub mean dev g : px lb <= px ub -> py lb <= py ub -> pth lb <= pth ub ->
  exists s, se2_sample_gaussian lb ub mean dev g = Ok s /\ se2_validate lb ub s = true.
Proof.
  intros A B D. unfold se2_sample_gaussian. edestruct (se2_enforce_ok lb ub) as (s & E & V & _); eauto.
Qed.

Lemma sample_many_ub {S} (sample : nat -> S) n : (0 < n)%nat -> sample_many sample n = UB.
Proof. destruct n as [|n]; [inversion 1|]. intros _. reflexivity. Qed.
