(** Path validation: the valid part of a path that is not accepted. *)
From Coq Require Import Reals Lra.
From Verif Require Import Base RealBase Grid_model Coords_model Pose_model Straight_model Straight_spec Validator_model Validator_spec Validator_proofs.
Local Open Scope R_scope.

Section Part.
Variable f : frames.
Variable clearance : cell -> res R.
Variables lb ub : pose.
Variables minSafe minStep : R.
Notation is_valid := (is_state_valid f clearance lb ub minSafe).
Notation step_of := (step_length f clearance lb ub minSafe minStep).
Notation loop := (validate_loop f clearance lb ub minSafe minStep).
Notation check := (is_path_valid f clearance lb ub minSafe minStep).

(** The length [s] follows a valid sample by at most its step. *)
Definition covered (p : path) (s : R) : Prop :=
  exists l0 x d, 0 <= l0 <= s /\ state_at p l0 x /\ is_valid x = Ok true /\ step_of x = Ok d /\ s <= l0 + d.

Lemma loop_part p fuel : 0 < minStep -> 0 < p_length p -> forall l last b r, loop fuel p l last = Ok (b, r) -> 0 <= last <= l ->
  (0 < l -> forall s, 0 <= s <= l -> covered p s) ->
  (b = true -> forall s, 0 <= s <= p_length p -> covered p s) /\ (b = false -> 0 < r -> forall s, 0 <= s <= r * p_length p -> covered p s).
Proof.
  intros Hm Hp. induction fuel as [|k IH]; intros l last b r E Hl Hc.
  - cbn in E. destruct (Rltb_spec l (p_length p)); [discriminate|]. assert (b = true) as -> by congruence. split; [|discriminate]. intros _ s Hs. apply Hc; lra.
  - rewrite loop_unfold in E. destruct (Rltb_spec l (p_length p)) as [Hlt|Hge].
    2: { assert (b = true) as -> by congruence. split; [|discriminate]. intros _ s Hs. apply Hc; lra. }
    destruct (p_at p (l / p_length p)) as [x| | |] eqn:Ex; try discriminate. cbn [bind] in E.
    destruct (is_valid x) as [v| | |] eqn:Ev; try discriminate. cbn [bind] in E. destruct v; cbn [negb] in E.
    + destruct (step_of x) as [d| | |] eqn:Ed; try discriminate. cbn [bind] in E. pose proof (step_ge f clearance lb ub minSafe minStep x d Ed).
      apply (IH (l + d) l b r E); [lra|]. intros _ s Hs. destruct (Rle_dec l s) as [L|L]; [exists l, x, d; repeat split; auto; lra|apply Hc; lra].
    + assert (b = false /\ r = last / p_length p) as [-> ->] by (split; congruence). split; [discriminate|]. intros _ Hr s Hs.
      replace (last / p_length p * p_length p) with last in Hs by (field; lra). apply Hc; [|lra].
      assert (0 < last); [|lra]. replace last with (last / p_length p * p_length p) by (field; lra). now apply Rmult_lt_0_compat.
Qed.

Lemma check_part p fuel b r : 0 < minStep -> 0 < p_length p -> check fuel p = Ok (b, r) -> b = true \/ 0 < r ->
  forall s, 0 <= s <= p_length p -> (b = false -> s <= r * p_length p) -> covered p s.
Proof.
  intros Hm Hp E Hb s Hs Hr. unfold is_path_valid in E. destruct (Reqb_spec (p_length p) 0); [exfalso; lra|].
  destruct (loop_part p fuel Hm Hp 0 0 b r E) as [A B]; [lra|intros; lra|]. destruct b; [now apply A|]. apply B; auto; [destruct Hb; [discriminate|auto]|]. split; [lra|auto].
Qed.

Lemma covered_start p x : covered p 0 -> state_at p 0 x -> is_valid x = Ok true.
Proof. intros (l0 & y & d & Hl & Hy & Hv & _) Hx. assert (l0 = 0) as -> by lra. unfold state_at in *. congruence. Qed.

Lemma covered_clearance p g eps s x : 0 < p_length p -> unit_speed p -> nonexpansive g ->
  (forall q c d, world_to_cell f q true = Ok c -> inside_cell f c = true -> clearance c = Ok d -> d <= g q + eps) ->
  covered p s -> 0 <= s <= p_length p -> state_at p s x -> 0 < minStep -> minSafe - minStep - eps <= g (position x).
Proof.
  intros Hp Hu Hg Hd (l & y & d & Hl & Hy & Hv & Hst & Hle) Hs Hx Hm.
  destruct (valid_facts f clearance lb ub minSafe y Hv) as (c & dc & Ec & Ic & Dc & Lc & _). specialize (Hd _ _ _ Ec Ic Dc).
  unfold step_length in Hst. rewrite Ec in Hst. cbn [bind] in Hst. rewrite Dc in Hst. cbn [bind] in Hst.
  set (border := Rmin (Rmin (Rmin (px y - px lb) (px ub - px y)) (py y - py lb)) (py ub - py y)) in Hst.
  assert (d = Rmax (Rmin (dc - minSafe) border) minStep) as -> by congruence.
  pose proof (Hu l s y x ltac:(lra) Hs Hy Hx) as U. pose proof (Hg (position y) (position x)) as G.
  assert (Rabs (l - s) = s - l) as A by (rewrite Rabs_left1; lra). rewrite A in U.
  pose proof (Rmin_l (dc - minSafe) border) as M. unfold Rmax in Hle. destruct (Rle_dec _ _); lra.
Qed.

(** The valid part of a path has the clearance of accepted ones. *)
Lemma part_clearance p fuel b r g eps : 0 < minStep -> 0 < p_length p -> unit_speed p -> nonexpansive g ->
  (forall q c d, world_to_cell f q true = Ok c -> inside_cell f c = true -> clearance c = Ok d -> d <= g q + eps) ->
  check fuel p = Ok (b, r) -> b = true \/ 0 < r ->
  forall s x, 0 <= s <= r * p_length p -> s <= p_length p -> state_at p s x -> minSafe - minStep - eps <= g (position x).
Proof.
  intros Hm Hp Hu Hg Hd E Hb s x Hs Hs' Hx. eapply covered_clearance; eauto; [|lra]. apply (check_part p fuel b r Hm Hp E Hb); lra.
Qed.
End Part.
