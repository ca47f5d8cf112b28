(** Real-number helpers shared by the geometric models: [double] and [float] are modelled by the reals. *)
From Coq Require Import Reals Lra Lia ZArith.
From Verif Require Import Base.
Local Open Scope R_scope.

(** The comparisons of C++. *)
Definition Rltb (a b : R) : bool := if Rlt_dec a b then true else false.
Definition Rleb (a b : R) : bool := if Rle_dec a b then true else false.
Definition Reqb (a b : R) : bool := if Req_EM_T a b then true else false.

Lemma Rltb_true a b : Rltb a b = true <-> a < b.
Proof. unfold Rltb. destruct (Rlt_dec a b); split; intros; auto; congruence. Qed.
Lemma Rltb_false a b : Rltb a b = false <-> b <= a.
Proof. unfold Rltb. destruct (Rlt_dec a b); split; intros; auto; try discriminate; lra. Qed.
Lemma Rleb_true a b : Rleb a b = true <-> a <= b.
Proof. unfold Rleb. destruct (Rle_dec a b); split; intros; auto; congruence. Qed.
Lemma Rleb_false a b : Rleb a b = false <-> b < a.
Proof. unfold Rleb. destruct (Rle_dec a b); split; intros; auto; try discriminate; lra. Qed.
Lemma Reqb_true a b : Reqb a b = true <-> a = b.
Proof. unfold Reqb. destruct (Req_EM_T a b); split; intros; auto; congruence. Qed.
Lemma Reqb_false a b : Reqb a b = false <-> a <> b.
Proof. unfold Reqb. destruct (Req_EM_T a b); split; intros; auto; congruence. Qed.

Lemma Rltb_spec a b : BoolSpec (a < b) (b <= a) (Rltb a b).
Proof. unfold Rltb. destruct (Rlt_dec a b); constructor; lra. Qed.
Lemma Rleb_spec a b : BoolSpec (a <= b) (b < a) (Rleb a b).
Proof. unfold Rleb. destruct (Rle_dec a b); constructor; lra. Qed.
Lemma Reqb_spec a b : BoolSpec (a = b) (a <> b) (Reqb a b).
Proof. unfold Reqb. destruct (Req_EM_T a b); constructor; auto. Qed.

(** [floor], [ceil], [trunc] (the conversion to an integer type) and [round] (halves away from zero). *)
Definition Rfloor (x : R) : Z := (up x - 1)%Z.
Definition Rceil (x : R) : Z := (- Rfloor (- x))%Z.
Definition Rtrunc (x : R) : Z := if Rle_dec 0 x then Rfloor x else Rceil x.
Definition Rround (x : R) : Z := if Rle_dec 0 x then Rfloor (x + / 2) else Rceil (x - / 2).

Lemma Rfloor_spec x : IZR (Rfloor x) <= x < IZR (Rfloor x) + 1.
Proof. unfold Rfloor. rewrite minus_IZR. pose proof (archimed x). lra. Qed.
Lemma Rceil_spec x : IZR (Rceil x) - 1 < x <= IZR (Rceil x).
Proof. unfold Rceil. rewrite opp_IZR. pose proof (Rfloor_spec (- x)). lra. Qed.

Lemma Rfloor_unique x n : IZR n <= x < IZR n + 1 -> Rfloor x = n.
Proof.
  intros H. pose proof (Rfloor_spec x) as H0.
  assert (IZR n < IZR (Rfloor x) + 1) by lra. assert (IZR (Rfloor x) < IZR n + 1) by lra.
  rewrite <- plus_IZR in *. apply lt_IZR in H1, H2. lia.
Qed.
Lemma Rceil_unique x n : IZR n - 1 < x <= IZR n -> Rceil x = n.
Proof. intros H. unfold Rceil. rewrite (Rfloor_unique (- x) (- n)); [lia|]. rewrite opp_IZR. lra. Qed.
Lemma Rfloor_IZR n : Rfloor (IZR n) = n.
Proof. apply Rfloor_unique. lra. Qed.
Lemma Rceil_IZR n : Rceil (IZR n) = n.
Proof. apply Rceil_unique. lra. Qed.
Lemma Rtrunc_IZR n : Rtrunc (IZR n) = n.
Proof. unfold Rtrunc. destruct (Rle_dec 0 (IZR n)); [apply Rfloor_IZR|apply Rceil_IZR]. Qed.

Lemma Rtrunc_spec x :
  (0 <= x /\ IZR (Rtrunc x) <= x < IZR (Rtrunc x) + 1 /\ (0 <= Rtrunc x)%Z) \/
  (x < 0 /\ IZR (Rtrunc x) - 1 < x <= IZR (Rtrunc x) /\ (Rtrunc x <= 0)%Z).
Proof.
  unfold Rtrunc. destruct (Rle_dec 0 x) as [H|H].
  - left. pose proof (Rfloor_spec x) as H0. split; [auto|split; [auto|]].
    assert (0 < IZR (Rfloor x) + 1) by lra. rewrite <- plus_IZR in H1. apply lt_IZR in H1. lia.
  - right. pose proof (Rceil_spec x) as H0. split; [lra|split; [auto|]].
    assert (IZR (Rceil x) - 1 < 0) by lra. rewrite <- minus_IZR in H1. apply lt_IZR in H1. lia.
Qed.

(** Conversion of a floating-point value to [int]: undefined when the truncated value is not an [int]. *)
Definition int_min : Z := (- 2 ^ 31)%Z.
Definition int_max : Z := (2 ^ 31 - 1)%Z.
Definition is_int (n : Z) : Prop := (int_min <= n <= int_max)%Z.
Definition cast_int (x : R) : res Z :=
  let n := Rtrunc x in
  if (int_min <=? n)%Z && (n <=? int_max)%Z then Ok n else UB.

Lemma cast_int_ok x n : cast_int x = Ok n <-> n = Rtrunc x /\ is_int n.
Proof.
  unfold cast_int, is_int. destruct (Z.leb_spec int_min (Rtrunc x)), (Z.leb_spec (Rtrunc x) int_max); cbn [andb]; split; intros H1;
    try discriminate; try (destruct H1; lia).
  - injection H1 as <-. auto.
  - destruct H1 as [-> _]. auto.
Qed.

Lemma Rabs_between x a : Rabs x <= a <-> - a <= x <= a.
Proof. unfold Rabs. destruct (Rcase_abs x); split; lra. Qed.
