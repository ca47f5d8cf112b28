(** The pictures are well-formed, and show what the heuristic and the diagram hold. *)
From Coq Require Import Reals Lra.
From Verif Require Import Base RealBase Grid_model Grid_spec Grid_proofs ObstacleMap_model Gvd_model ObstHeur_model ObstHeur_proofs Planner_model Visual_model Visual_spec.
From Coq Require Import ZifyBool ZifyNat ZifyN.
Open Scope Z_scope.

(** * Numbers *)
Lemma digits_head fuel : forall n rest, 0 <= n -> exists d l, digits (S fuel) n rest = d :: l /\ digit d = true.
Proof.
  induction fuel as [|fuel IH]; intros n rest Hn.
  - cbn [digits]. destruct (n <? 10) eqn:E; eexists; eexists; split; try reflexivity; unfold digit; lia.
  - change (digits (S (S fuel)) n rest) with (if n <? 10 then 48 + n :: rest else digits (S fuel) (n / 10) (48 + n mod 10 :: rest)).
    destruct (n <? 10) eqn:E; [eexists; eexists; split; [reflexivity|unfold digit; lia]|]. apply IH. lia.
Qed.

Lemma digits_number fuel : forall n rest, 0 <= n < 2 ^ Z.of_nat fuel -> (0 < fuel)%nat -> number 0 (digits fuel n rest) = number n rest.
Proof.
  induction fuel as [|fuel IH]; intros n rest Hn Hf; [lia|]. cbn [digits]. destruct (n <? 10) eqn:E.
  - cbn [number]. assert (digit (48 + n) = true) as -> by (unfold digit; lia). f_equal. lia.
  - destruct fuel as [|fuel]; [cbn in Hn; lia|]. rewrite IH; [|replace (Z.of_nat (S (S fuel))) with (1 + Z.of_nat (S fuel)) in Hn by lia; rewrite Z.pow_add_r, Z.pow_1_r in Hn by lia; lia|lia].
    cbn [number]. assert (digit (48 + n mod 10) = true) as -> by (unfold digit; lia). f_equal. lia.
Qed.

Lemma decimal_read n rest : 0 <= n -> match rest with [] => True | b :: _ => digit b = false end ->
  forall l, skip false l = decimal n ++ rest -> read_number l = Some (n, rest).
Proof.
  intros Hn Hr l El. unfold read_number. rewrite El. unfold decimal. destruct (n <? 0) eqn:E; [lia|].
  assert (App : forall fuel n a, digits fuel n a ++ rest = digits fuel n (a ++ rest)).
  { clear. induction fuel as [|fuel IH]; intros n a; cbn [digits]; auto. destruct (n <? 10); auto. now rewrite IH. }
  rewrite App. cbn [app]. destruct (digits_head (Z.to_nat (Z.log2 n)) n rest Hn) as (d & t & Ed & Hd).
  rewrite Ed. cbv iota. rewrite Hd, <- Ed. rewrite digits_number; [|split; [exact Hn|]|lia].
  - destruct rest as [|b rest]; auto. cbn [number]. now rewrite Hr.
  - rewrite Nat2Z.inj_succ, Z2Nat.id by apply Z.log2_nonneg. destruct (Z.eq_dec n 0) as [->|]; [reflexivity|]. apply Z.log2_spec. lia.
Qed.

Lemma decimal_skip n rest : 0 <= n -> skip false (decimal n ++ rest) = decimal n ++ rest.
Proof.
  intros Hn. unfold decimal. destruct (n <? 0) eqn:E; [lia|]. destruct (digits_head (Z.to_nat (Z.log2 n)) n [] Hn) as (d & t & -> & Hd). cbn [app skip].
  assert (d =? 35 = false) as -> by (unfold digit in Hd; lia). assert (blank d = false) as -> by (unfold digit in Hd; unfold blank; lia). reflexivity.
Qed.

Lemma header_read m n l : 0 <= m -> 0 <= n -> Z.of_nat (length l) = 3 * m * n -> Forall (fun x => 0 <= x < 256) l ->
  read_ppm (header m n ++ l) = Some (Picture m n 255 l).
Proof.
  intros Hm Hn Hl Hb. unfold header. repeat rewrite <- app_assoc. cbn [app]. unfold read_ppm. cbn [Z.eqb Pos.eqb andb negb].
  rewrite (decimal_read m (32 :: decimal n ++ 10 :: 50 :: 53 :: 53 :: 10 :: l) Hm eq_refl); [|cbn [skip Z.eqb Pos.eqb blank orb andb Z.leb Z.compare Pos.compare Pos.compare_cont negb]; now apply decimal_skip].
  rewrite (decimal_read n (10 :: 50 :: 53 :: 53 :: 10 :: l) Hn eq_refl); [|cbn [skip Z.eqb Pos.eqb blank orb andb Z.leb Z.compare Pos.compare Pos.compare_cont negb]; now apply decimal_skip].
  change (read_number (10 :: 50 :: 53 :: 53 :: 10 :: l)) with (Some (255, 10 :: l)). cbn [blank Z.eqb Pos.eqb orb andb Z.leb Z.ltb Z.compare Pos.compare Pos.compare_cont].
  assert (Z.of_nat (length l) =? 3 * m * n = true) as -> by lia. assert (forallb (fun x => (0 <=? x) && (x <=? 255)) l = true) as ->; [|reflexivity].
  apply forallb_forall. rewrite Forall_forall in Hb. intros x Hx. specialize (Hb x Hx). lia.
Qed.

(** * The order of the pixels *)
Lemma nth_flat {A B} (f : A -> list B) k : (forall a, length (f a) = k) -> forall l i j a, nth_error l i = Some a -> (j < k)%nat -> nth_error (flat_map f l) (i * k + j) = nth_error (f a) j.
Proof.
  intros Hk. induction l as [|b l IH]; intros [|i] j a E Hj; try discriminate; cbn [flat_map].
  - injection E as ->. rewrite nth_error_app1 by (rewrite Hk; lia). reflexivity.
  - rewrite nth_error_app2 by (rewrite Hk; lia). rewrite Hk. replace (S i * k + j - k)%nat with (i * k + j)%nat by lia. now apply IH.
Qed.

Lemma nth_zseq n i : 0 <= i < n -> nth_error (zseq n) (Z.to_nat i) = Some i.
Proof. intros H. unfold zseq. rewrite nth_error_map, (nth_error_nth' _ O) by (rewrite seq_length; lia). rewrite seq_nth by lia. cbn. f_equal. lia. Qed.

Lemma nth_rev {A} (l : list A) i a : nth_error l i = Some a -> nth_error (rev l) (length l - 1 - i) = Some a.
Proof.
  revert i. induction l as [|b l IH]; intros [|i] E; try discriminate; cbn [rev length].
  - injection E as ->. rewrite nth_error_app2 by (rewrite rev_length; lia). rewrite rev_length. now replace (S (length l) - 1 - 0 - length l)%nat with O by lia.
  - pose proof (IH _ E) as H. assert (length l - 1 - i < length (rev l))%nat by (apply nth_error_Some; congruence). rewrite nth_error_app1; [|lia]. rewrite <- H. f_equal. lia.
Qed.

Lemma zseq_length n : length (zseq n) = Z.to_nat n.
Proof. unfold zseq. now rewrite map_length, seq_length. Qed.

Lemma nth_picture m n c : inside m n c -> nth_error (picture_cells m n) (Z.to_nat ((n - 1 - col c) * m + row c)) = Some c.
Proof.
  intros [Hr Hc]. unfold picture_cells. replace (Z.to_nat ((n - 1 - col c) * m + row c)) with (Z.to_nat (n - 1 - col c) * Z.to_nat m + Z.to_nat (row c))%nat by nia.
  rewrite (nth_flat _ (Z.to_nat m)) with (a := col c).
  - rewrite nth_error_map, nth_zseq by lia. now destruct c.
  - intros y. now rewrite map_length, zseq_length.
  - pose proof (nth_rev _ _ _ (nth_zseq n (col c) ltac:(lia))) as H. rewrite zseq_length in H. rewrite <- H. f_equal. lia.
  - lia.
Qed.

Lemma picture_length m n : length (picture_cells m n) = (Z.to_nat n * Z.to_nat m)%nat.
Proof. unfold picture_cells. rewrite (length_flat_const _ (Z.to_nat m)); [now rewrite rev_length, zseq_length|]. intros y. now rewrite map_length, zseq_length. Qed.

Lemma picture_In m n c : In c (picture_cells m n) -> inside m n c.
Proof.
  unfold picture_cells. rewrite in_flat_map. intros (y & Hy & H). apply in_rev in Hy. apply in_map_iff in H as (x & <- & Hx). apply zseq_In in Hx, Hy. split; cbn; lia.
Qed.

(** * Pixels *)
Lemma pixels_ok color l : (forall c, In c l -> exists r g b, color c = Ok (r, g, b)) -> exists out, pixels color l = Ok out.
Proof.
  induction l as [|c l IH]; intros H; cbn [pixels]; [eauto|]. destruct (H c (or_introl eq_refl)) as (r & g & b & ->). destruct IH as (out & ->); [firstorder|]. cbn [bind]. eauto.
Qed.

Lemma pixels_inv color l : forall out, pixels color l = Ok out -> length out = (3 * length l)%nat /\ Forall (fun x => 0 <= x < 256) out /\
  forall i c r g b, nth_error l i = Some c -> color c = Ok (r, g, b) ->
    nth_error out (3 * i) = Some (r mod 256) /\ nth_error out (3 * i + 1) = Some (g mod 256) /\ nth_error out (3 * i + 2) = Some (b mod 256).
Proof.
  induction l as [|c l IH]; intros out E; cbn [pixels] in E.
  - injection E as <-. split; auto. split; auto. intros [|i]; discriminate.
  - destruct (color c) as [[[r g] b]| | |] eqn:Ec; try discriminate. cbn [bind] in E. destruct (pixels color l) as [rest| | |]; try discriminate. cbn [bind fst snd] in E. injection E as <-.
    destruct (IH rest eq_refl) as (L & B & P). split; [cbn [length]; lia|]. split; [repeat constructor; auto; unfold fputc; lia|].
    intros [|i] c' r' g' b' Ei Ec'; cbn [nth_error] in Ei.
    + injection Ei as <-. rewrite Ec in Ec'. injection Ec' as <- <- <-. cbn. auto.
    + destruct (P i c' r' g' b' Ei Ec') as (P1 & P2 & P3). replace (3 * S i)%nat with (S (S (S (3 * i)))) by lia. cbn [nth_error Nat.add]. auto.
Qed.

Lemma file_read m n color : 0 <= m -> 0 <= n -> (forall c, inside m n c -> exists r g b, color c = Ok (r, g, b)) ->
  exists bytes p, file m n color = Ok bytes /\ read_ppm bytes = Some p /\ p_width p = m /\ p_height p = n /\ p_max p = 255 /\
  forall c r g b, inside m n c -> color c = Ok (r, g, b) -> shown p c = Some (r mod 256, g mod 256, b mod 256).
Proof.
  intros Hm Hn H. destruct (pixels_ok color (picture_cells m n)) as (out & E); [intros c Hc; apply H; now apply picture_In|]. destruct (pixels_inv _ _ _ E) as (L & B & P).
  unfold file. rewrite E. cbn [bind]. exists (header m n ++ out), (Picture m n 255 out). split; auto. split.
  { apply header_read; auto. rewrite L, picture_length. nia. }
  split; auto. split; auto. split; auto. intros c r g b Hc Ec. pose proof Hc as [Hr Hl]. unfold shown, pixel. cbn [p_width p_height p_samples].
  assert ((0 <=? row c) && (row c <? m) && (0 <=? n - 1 - col c) && (n - 1 - col c <? n) = true) as -> by lia.
  destruct (P _ c r g b (nth_picture m n c Hc) Ec) as (P1 & P2 & P3).
  replace (Z.to_nat (3 * ((n - 1 - col c) * m + row c))) with (3 * Z.to_nat ((n - 1 - col c) * m + row c))%nat by nia. now rewrite P1, P2, P3.
Qed.
