(** Permitted steps do not cross a drawn outline. *)
From Coq Require Import Reals Lra.
From Verif Require Import Base Frontier_model Frontier_spec AStar_model AStar_spec Grid_model Grid_spec Raster_model Raster_spec Raster_proofs
  AStarN2_model AStarN2_spec AStarN2_proofs GridSide_spec.
Open Scope Z_scope.

(** * Parity *)
Definition in_set (c : cell) (a : cell) : bool := (row a =? row c) && (col c <? col a).

(** The two corner cells of the diagonal step between [c] and [d]. *)
Definition squeezed (c d a b : cell) : Prop :=
  row c <> row d /\ col c <> col d /\ (a = Cell (row d) (col c) /\ b = Cell (row c) (col d) \/ b = Cell (row d) (col c) /\ a = Cell (row c) (col d)).

Lemma cross_up c d a b : touches a b -> touches c d -> row c < row d -> a <> c -> a <> d -> b <> c -> b <> d -> ~ squeezed c d a b ->
  xorb (crosses c a b) (crosses d a b) = xorb (in_set d a) (in_set d b).
Proof.
  destruct c as [cr cc], d as [dr dc], a as [ar ac], b as [br bc]. unfold touches, crosses, in_set. cbn [row col].
  intros Ht Hc Hr N1 N2 N3 N4 Hs.
  assert (M1 : ar = cr -> ac = cc -> False) by (intros -> ->; now apply N1). assert (M2 : ar = dr -> ac = dc -> False) by (intros -> ->; now apply N2).
  assert (M3 : br = cr -> bc = cc -> False) by (intros -> ->; now apply N3). assert (M4 : br = dr -> bc = dc -> False) by (intros -> ->; now apply N4).
  assert (M5 : ar = dr -> br = cr -> cc <> dc /\ ac = cc /\ bc = dc -> False).
  { intros -> -> (Q & -> & ->). apply Hs. unfold squeezed. cbn [row col]. split; [clear - Hr; lia|]. split; [auto|]. now left. }
  assert (M6 : ar = cr -> br = dr -> cc <> dc /\ bc = cc /\ ac = dc -> False).
  { intros -> -> (Q & -> & ->). apply Hs. unfold squeezed. cbn [row col]. split; [clear - Hr; lia|]. split; [auto|]. now right. }
  clear Hs N1 N2 N3 N4. assert (dr = cr + 1) as -> by (clear - Hc Hr; lia).
  assert (Hab : -1 <= ar - br <= 1 /\ -1 <= ac - bc <= 1) by (clear - Ht; lia). assert (Hcd : -1 <= cc - dc <= 1) by (clear - Hc; lia). clear Ht Hc Hr.
  assert (Pr : -1 <= ar - br <= 1) by apply Hab.
  destruct (Z.eqb_spec ar cr); [destruct (Z.eqb_spec ar (cr + 1)), (Z.eqb_spec ar (cr + 1 + 1)); try (exfalso; clear - e e0; lia)|
    destruct (Z.eqb_spec ar (cr + 1)); [destruct (Z.eqb_spec ar (cr + 1 + 1)); try (exfalso; clear - e e0; lia)|destruct (Z.eqb_spec ar (cr + 1 + 1))]];
  (destruct (Z.eqb_spec br cr) as [q1|q1]; destruct (Z.eqb_spec br (cr + 1)) as [q2|q2]; try (exfalso; clear - q1 q2; lia);
   destruct (Z.eqb_spec br (cr + 1 + 1)) as [q3|q3]; try (exfalso; clear - q1 q2 q3; lia));
  cbn [andb orb xorb]; try reflexivity;
  repeat match goal with
  | H : ?x = ?y, M : ?x = ?y -> _ |- _ => specialize (M H)
  end;
  repeat match goal with
  | M : ?x = cr -> _ |- _ => clear M
  | M : ?x = cr + 1 -> _ |- _ => clear M
  end;
  try (exfalso; clear M1 M2 M3 M4 M5 M6; lia);
  repeat match goal with |- context [?x <? ?y] => destruct (Z.ltb_spec x y) end; cbn [andb orb xorb]; try reflexivity; exfalso; lia.
Qed.

Lemma cross_level c d a b : touches a b -> touches c d -> row c = row d -> a <> c -> a <> d -> b <> c -> b <> d ->
  xorb (crosses c a b) (crosses d a b) = false.
Proof.
  destruct c as [cr cc], d as [dr dc], a as [ar ac], b as [br bc]. unfold touches, crosses. cbn [row col].
  intros Ht Hc Hr N1 N2 N3 N4. subst dr.
  assert (M1 : ~ (ar = cr /\ ac = cc)) by (intros [-> ->]; now apply N1). assert (M2 : ~ (ar = cr /\ ac = dc)) by (intros [-> ->]; now apply N2).
  assert (M3 : ~ (br = cr /\ bc = cc)) by (intros [-> ->]; now apply N3). assert (M4 : ~ (br = cr /\ bc = dc)) by (intros [-> ->]; now apply N4).
  assert (Hab : -1 <= ar - br <= 1 /\ -1 <= ac - bc <= 1) by (clear - Ht; lia). assert (Hcd : -1 <= cc - dc <= 1) by (clear - Hc; lia). clear Ht Hc N1 N2 N3 N4.
  destruct (Z.eqb_spec ar cr), (Z.eqb_spec br (cr + 1)), (Z.eqb_spec br cr), (Z.eqb_spec ar (cr + 1)),
    (Z.ltb_spec cc ac), (Z.ltb_spec cc bc), (Z.ltb_spec dc ac), (Z.ltb_spec dc bc); cbn [andb orb xorb]; try reflexivity; exfalso; lia.
Qed.

Lemma touches_sym c d : touches c d -> touches d c.
Proof. unfold touches. lia. Qed.
Lemma squeezed_sym c d a b : squeezed d c a b -> squeezed c d a b.
Proof. unfold squeezed. intros (N & M & [[-> ->]|[-> ->]]); split; auto; split; auto. Qed.

(** Some set is entered or left by exactly the segments that are crossed by one of the two half-lines only. *)
Lemma cross_step c d : touches c d -> exists X : cell -> bool, forall a b, touches a b -> a <> c -> a <> d -> b <> c -> b <> d -> ~ squeezed c d a b ->
  xorb (crosses c a b) (crosses d a b) = xorb (X a) (X b).
Proof.
  intros Hc. destruct (Z.lt_trichotomy (row c) (row d)) as [Hr|[Hr|Hr]].
  - exists (in_set d). intros. now apply cross_up.
  - exists (fun _ => false). intros. cbn [xorb]. now apply cross_level.
  - exists (in_set c). intros a b Ht N1 N2 N3 N4 Hs. rewrite xorb_comm. apply cross_up; auto using touches_sym. intros Q. now apply Hs, squeezed_sym.
Qed.

Lemma odd_add a b : Nat.odd (a + b) = xorb (Nat.odd a) (Nat.odd b).
Proof. apply Nat.odd_add. Qed.

Lemma next_tail a l x y : next l x y -> next (a :: l) x y.
Proof. intros (l1 & l2 & ->). now exists (a :: l1), l2. Qed.
Lemma next_In l a b : next l a b -> In a l /\ In b l.
Proof. intros (l1 & l2 & ->). split; apply in_or_app; right; [now left|right; now left]. Qed.
Lemma next_touches l a b : consecutive touches l -> next l a b -> touches a b.
Proof.
  intros H (l1 & l2 & ->). induction l1 as [|x l1 IH]; cbn [app] in H; [apply H|].
  apply IH. destruct l1 as [|y l1]; cbn [app] in *; apply H.
Qed.

(** The crossings of one chain. *)
Lemma chain_parity c d (X : cell -> bool) l : forall p,
  (forall a b, next (p :: l) a b -> xorb (crosses c a b) (crosses d a b) = xorb (X a) (X b)) ->
  xorb (Nat.odd (crossings c (p :: l))) (Nat.odd (crossings d (p :: l))) = xorb (X p) (X (last (p :: l) p)).
Proof.
  induction l as [|b l IH]; intros p H; [cbn [last crossings]; now rewrite !xorb_nilpotent|].
  assert (Hb : xorb (crosses c p b) (crosses d p b) = xorb (X p) (X b)) by (apply H; exists [], l; reflexivity).
  specialize (IH b ltac:(intros a b' Q; apply H; exact (next_tail _ _ _ _ Q))).
  replace (last (p :: b :: l) p) with (last (b :: l) b) by (cbn [last]; clear; destruct l as [|z l]; auto; revert z; induction l as [|w l IH]; intros z; auto; apply IH).
  change (crossings c (p :: b :: l)) with ((if crosses c p b then 1 else 0) + crossings c (b :: l))%nat.
  change (crossings d (p :: b :: l)) with ((if crosses d p b then 1 else 0) + crossings d (b :: l))%nat.
  rewrite !odd_add.
  assert (O : forall z : bool, Nat.odd (if z then 1 else 0) = z) by (now intros []). rewrite !O.
  revert Hb IH. destruct (crosses c p b), (crosses d p b), (Nat.odd (crossings c (b :: l))), (Nat.odd (crossings d (b :: l))), (X p), (X b), (X (last (b :: l) b)); cbn; congruence.
Qed.

Lemma chain_two c d (X : cell -> bool) p q l : chain p q l ->
  (forall a b, next l a b -> xorb (crosses c a b) (crosses d a b) = xorb (X a) (X b)) ->
  xorb (Nat.odd (crossings c l)) (Nat.odd (crossings d l)) = xorb (X p) (X q).
Proof.
  intros [He _] H. destruct l as [|a l]; [destruct He as [[? _]|[? _]]; discriminate|].
  destruct He as [[Q1 Q2]|[Q1 Q2]]; cbn [hd_error] in Q1; injection Q1 as ->; rewrite (chain_parity c d X l _ H).
  - now rewrite Q2.
  - rewrite Q2. apply xorb_comm.
Qed.

Lemma chains_parity c d (X : cell -> bool) vs : forall v ls, joined chain v vs ls ->
  (forall l a b, In l ls -> next l a b -> xorb (crosses c a b) (crosses d a b) = xorb (X a) (X b)) ->
  xorb (enclosed ls c) (enclosed ls d) = xorb (X v) (X (last vs v)).
Proof.
  unfold enclosed. induction vs as [|w vs IH]; intros v [|l ls] H HX; cbn [joined] in H; try contradiction.
  - cbn. now rewrite xorb_nilpotent.
  - destruct H as [Hl Hr]. specialize (IH w ls Hr ltac:(intros; eapply HX; eauto; now right)).
    pose proof (chain_two c d X v w l Hl ltac:(intros; eapply HX; eauto; now left)) as Q.
    replace (last (w :: vs) v) with (last vs w) by (clear; revert w; induction vs as [|z vs IH]; intros w; auto; cbn [last] in *; destruct vs; auto; apply IH).
    cbn [map list_sum fold_right]. change (fold_right Nat.add 0%nat ?z) with (list_sum z). rewrite !odd_add.
    revert Q IH. destruct (Nat.odd (crossings c l)), (Nat.odd (crossings d l)), (Nat.odd (list_sum (map (crossings c) ls))), (Nat.odd (list_sum (map (crossings d) ls))), (X v), (X w), (X (last vs w)); cbn; congruence.
Qed.

Lemma outline_parity c d (X : cell -> bool) vs ls : outline vs ls ->
  (forall l a b, In l ls -> next l a b -> xorb (crosses c a b) (crosses d a b) = xorb (X a) (X b)) ->
  enclosed ls c = enclosed ls d.
Proof.
  intros Ho HX. unfold outline in Ho. destruct vs as [|v r]; [cbn in Ho; now subst|]. cbn [loop] in Ho.
  pose proof (chains_parity c d X _ v ls Ho HX) as Q. rewrite last_last, xorb_nilpotent in Q. now apply xorb_eq.
Qed.

Lemma outline_chain vs ls l : outline vs ls -> In l ls -> exists p q, chain p q l.
Proof.
  intros Ho. assert (H : forall vs v, joined chain v vs ls -> In l ls -> exists p q, chain p q l).
  { clear. induction ls as [|l' ls IH]; intros [|w vs] v H Hl; cbn [joined] in H; try contradiction. destruct H as [H1 H2]. destruct Hl as [<-|Hl]; eauto. }
  unfold outline in Ho. destruct vs as [|v r]; cbn [loop] in Ho; [subst; contradiction|]. eauto.
Qed.

(** Two unit segments on a line. *)
Lemma unit_meet d f e t u : (0 <= t <= 1)%R -> (0 <= u <= 1)%R -> d = -1 \/ d = 1 -> f = -1 \/ f = 1 -> (t * IZR d = IZR e + u * IZR f)%R ->
  e = 0 \/ e = d \/ e + f = 0 \/ e + f = d.
Proof.
  intros Ht Hu [->| ->] [->| ->] E.
  - assert (-1 <= e <= 1) by (split; apply le_IZR; lra). lia.
  - assert (-2 <= e <= 0) by (split; apply le_IZR; lra). lia.
  - assert (0 <= e <= 2) by (split; apply le_IZR; lra). lia.
  - assert (-1 <= e <= 1) by (split; apply le_IZR; lra). lia.
Qed.
Definition meeting (d1 d2 f1 f2 e1 e2 : Z) : Prop :=
  (e1 = 0 /\ e2 = 0) \/ (e1 = d1 /\ e2 = d2) \/ (e1 + f1 = 0 /\ e2 + f2 = 0) \/ (e1 + f1 = d1 /\ e2 + f2 = d2) \/
  (d1 <> 0 /\ d2 <> 0 /\ (e1 = d1 /\ e2 = 0 /\ e1 + f1 = 0 /\ e2 + f2 = d2 \/ e1 + f1 = d1 /\ e2 + f2 = 0 /\ e1 = 0 /\ e2 = d2)).
Ltac pick := first
  [ left; split; lia | right; left; split; lia | right; right; left; split; lia | right; right; right; left; split; lia
  | right; right; right; right; split; [lia|split; [lia|]]; first [left; repeat split; lia | right; repeat split; lia] ].
(** A segment along an axis. *)
Lemma axis_meet d2 f1 f2 e1 e2 t u : (0 <= t <= 1)%R -> (0 <= u <= 1)%R -> d2 = -1 \/ d2 = 1 -> -1 <= f1 <= 1 -> -1 <= f2 <= 1 -> f1 <> 0 \/ f2 <> 0 ->
  (t * IZR 0 = IZR e1 + u * IZR f1)%R -> (t * IZR d2 = IZR e2 + u * IZR f2)%R ->
  (e1 = 0 /\ e2 = 0) \/ (e1 = 0 /\ e2 = d2) \/ (e1 + f1 = 0 /\ e2 + f2 = 0) \/ (e1 + f1 = 0 /\ e2 + f2 = d2).
Proof.
  intros Ht Hu Hd H1 H2 N E1 E2. destruct (Z.eq_dec f1 0) as [->|N1].
  - assert (e1 = 0) as -> by (apply eq_IZR; lra). destruct (unit_meet d2 f2 e2 t u) as [Q|[Q|[Q|Q]]]; auto; try lia.
  - assert (D : forall w, (t * IZR d2 = IZR w)%R -> w = 0 \/ w = d2).
    { intros w Ew. destruct Hd as [->| ->]; [assert (-1 <= w <= 0) by (split; apply le_IZR; lra)|assert (0 <= w <= 1) by (split; apply le_IZR; lra)]; lia. }
    assert (K : (e1 = 0 /\ u = 0%R) \/ (e1 + f1 = 0 /\ u = 1%R)).
    { assert (f1 = -1 \/ f1 = 1) as [->| ->] by lia.
      - assert (0 <= e1 <= 1) by (split; apply le_IZR; lra). assert (e1 = 0 \/ e1 = 1) as [->| ->] by lia; [left|right]; split; try lia; lra.
      - assert (-1 <= e1 <= 0) by (split; apply le_IZR; lra). assert (e1 = 0 \/ e1 = -1) as [->| ->] by lia; [left|right]; split; try lia; lra. }
    destruct K as [[-> ->]|[K ->]].
    + destruct (D e2) as [->| ->]; [lra| |]; auto.
    + destruct (D (e2 + f2)) as [Q|Q]; [rewrite plus_IZR; lra| |]; auto.
Qed.
Lemma lattice_meet d1 d2 f1 f2 e1 e2 t u : (0 <= t <= 1)%R -> (0 <= u <= 1)%R -> -1 <= d1 <= 1 -> -1 <= d2 <= 1 -> -1 <= f1 <= 1 -> -1 <= f2 <= 1 ->
  d1 <> 0 \/ d2 <> 0 -> f1 <> 0 \/ f2 <> 0 -> (t * IZR d1 = IZR e1 + u * IZR f1)%R -> (t * IZR d2 = IZR e2 + u * IZR f2)%R -> meeting d1 d2 f1 f2 e1 e2.
Proof.
  intros Ht Hu D1 D2 F1 F2 Nd Nf E1 E2. unfold meeting.
  destruct (Z.eq_dec d1 0) as [->|N1].
  { destruct (axis_meet d2 f1 f2 e1 e2 t u) as [Q|[Q|[Q|Q]]]; auto; [lia|clear - Q; pick ..]. }
  destruct (Z.eq_dec d2 0) as [->|N2].
  { destruct (axis_meet d1 f2 f1 e2 e1 t u) as [Q|[Q|[Q|Q]]]; auto; [lia|clear - Nf; tauto|clear - Q; pick ..]. }
  assert (E1' : (u * IZR f1 = IZR (- e1) + t * IZR d1)%R) by (rewrite opp_IZR; lra). assert (E2' : (u * IZR f2 = IZR (- e2) + t * IZR d2)%R) by (rewrite opp_IZR; lra).
  destruct (Z.eq_dec f1 0) as [->|M1].
  { destruct (axis_meet f2 d1 d2 (- e1) (- e2) u t) as [Q|[Q|[Q|Q]]]; auto; [lia|clear - Q; pick ..]. }
  destruct (Z.eq_dec f2 0) as [->|M2].
  { destruct (axis_meet f1 d2 d1 (- e2) (- e1) u t) as [Q|[Q|[Q|Q]]]; auto; [lia|clear - Q; pick ..]. }
  clear E1' E2'.
  destruct (Z.eq_dec (f1 * d2) (f2 * d1)) as [P|P].
  - assert (e1 * d2 = e2 * d1).
    { apply eq_IZR. rewrite !mult_IZR. apply (f_equal IZR) in P. rewrite !mult_IZR in P.
      transitivity (t * IZR d1 * IZR d2 - u * (IZR f1 * IZR d2))%R; [rewrite E1; ring|]. rewrite P.
      transitivity (t * IZR d2 * IZR d1 - u * (IZR f2 * IZR d1))%R; [ring|]. rewrite E2. ring. }
    assert (C1 : d1 = -1 \/ d1 = 1) by (clear - D1 N1; lia). assert (C2 : d2 = -1 \/ d2 = 1) by (clear - D2 N2; lia).
    assert (C3 : f1 = -1 \/ f1 = 1) by (clear - F1 M1; lia). assert (C4 : f2 = -1 \/ f2 = 1) by (clear - F2 M2; lia).
    assert (U := unit_meet d1 f1 e1 t u Ht Hu C1 C3 E1). clear - U P H C1 C2 C3 C4.
    destruct C1 as [->| ->], C2 as [->| ->], C3 as [->| ->], C4 as [->| ->]; try (exfalso; clear - P; lia); clear P; destruct U as [Q|[Q|[Q|Q]]]; pick.
  - assert (C1 : d1 = -1 \/ d1 = 1) by (clear - D1 N1; lia). assert (C2 : d2 = -1 \/ d2 = 1) by (clear - D2 N2; lia).
    assert (C3 : f1 = -1 \/ f1 = 1) by (clear - F1 M1; lia). assert (C4 : f2 = -1 \/ f2 = 1) by (clear - F2 M2; lia).
    assert (B1 : 0 <= e1 * d1 + e2 * d2 <= 2).
    { split; apply le_IZR; rewrite plus_IZR, !mult_IZR; destruct C1 as [->| ->], C2 as [->| ->], C3 as [->| ->], C4 as [->| ->]; try lia; lra. }
    assert (B2 : -2 <= e1 * f1 + e2 * f2 <= 0).
    { split; apply le_IZR; rewrite plus_IZR, !mult_IZR; destruct C1 as [->| ->], C2 as [->| ->], C3 as [->| ->], C4 as [->| ->]; try lia; lra. }
    clear - P B1 B2 C1 C2 C3 C4. destruct C1 as [->| ->], C2 as [->| ->], C3 as [->| ->], C4 as [->| ->]; try (exfalso; clear - P; lia); clear P;
      (assert (A1 : e1 = -2 \/ e1 = -1 \/ e1 = 0 \/ e1 = 1 \/ e1 = 2) by (assert (-2 <= e1 <= 2) by lia; lia)); (assert (A2 : e2 = -2 \/ e2 = -1 \/ e2 = 0 \/ e2 = 1 \/ e2 = 2) by (assert (-2 <= e2 <= 2) by lia; lia));
      destruct A1 as [->|[->|[->|[->| ->]]]], A2 as [->|[->|[->|[->| ->]]]]; try (exfalso; lia); clear B1 B2; pick.
Qed.

(** * One permitted step *)
Section Step.
  Variables (m n : Z) (occ : cell -> bool).

  Lemma step_side vs ls p q : outline vs ls -> walled m n occ ls -> inside m n p -> occ p = false -> grid_step m n occ p q ->
    enclosed ls p = enclosed ls q.
  Proof.
    intros Ho Hw Hp Fp (Hq & Ht & Fq & Hs). destruct (cross_step p q Ht) as (X & HX).
    apply (outline_parity p q X vs ls Ho). intros l a b Hl Hab. destruct (next_In _ _ _ Hab) as [Ia Ib].
    destruct (outline_chain _ _ _ Ho Hl) as (v & w & _ & Hc).
    apply HX; [eapply next_touches; eauto|intros ->|intros ->|intros ->|intros ->|].
    - rewrite (Hw _ _ Hl Ia Hp) in Fp. discriminate.
    - rewrite (Hw _ _ Hl Ia Hq) in Fq. discriminate.
    - rewrite (Hw _ _ Hl Ib Hp) in Fp. discriminate.
    - rewrite (Hw _ _ Hl Ib Hq) in Fq. discriminate.
    - intros (N & M & E). apply Hs. split; auto. split; auto.
      assert (inside m n (Cell (row q) (col p)) /\ inside m n (Cell (row p) (col q))) as [I1 I2] by (unfold inside in *; cbn [row col]; lia).
      destruct E as [[-> ->]|[-> ->]]; split; eapply Hw; eauto.
  Qed.

  (** Two segments that meet share an end point, or are the two diagonals of a square. *)
  Lemma meet p q a b x y : touches p q -> touches a b -> between p q x y -> between a b x y ->
    a = p \/ a = q \/ b = p \/ b = q \/ squeezed p q a b.
  Proof.
    intros Hp Ha (t & Ht & -> & ->) (u & Hu & Ex & Ey).
    destruct p as [p1 p2], q as [q1 q2], a as [a1 a2], b as [b1 b2]. unfold touches, squeezed in *. cbn [row col] in *.
    remember (q1 - p1) as d1 eqn:D1. remember (q2 - p2) as d2 eqn:D2. remember (b1 - a1) as f1 eqn:F1. remember (b2 - a2) as f2 eqn:F2.
    remember (a1 - p1) as e1 eqn:E1. remember (a2 - p2) as e2 eqn:E2.
    assert (q1 = p1 + d1) as -> by lia. assert (q2 = p2 + d2) as -> by lia. assert (a1 = p1 + e1) as -> by lia. assert (a2 = p2 + e2) as -> by lia.
    assert (b1 = p1 + e1 + f1) as -> by lia. assert (b2 = p2 + e2 + f2) as -> by lia. clear D1 D2 F1 F2 E1 E2.
    rewrite !plus_IZR in Ex, Ey.
    assert (Ex' : (t * IZR d1 = IZR e1 + u * IZR f1)%R) by lra. assert (Ey' : (t * IZR d2 = IZR e2 + u * IZR f2)%R) by lra. clear Ex Ey.
    assert (K : meeting d1 d2 f1 f2 e1 e2) by (apply (lattice_meet d1 d2 f1 f2 e1 e2 t u); auto; clear - Hp Ha; lia).
    clear - K. unfold meeting in K.
    destruct K as [[-> ->]|[[-> ->]|[[K1 K2]|[[K1 K2]|(N & M & [(K1 & K2 & K3 & K4)|(K1 & K2 & K3 & K4)])]]]].
    - left. f_equal; lia.
    - right. left. f_equal; lia.
    - right. right. left. f_equal; lia.
    - right. right. right. left. f_equal; lia.
    - right. right. right. right. split; [lia|]. split; [lia|]. left. split; f_equal; lia.
    - right. right. right. right. split; [lia|]. split; [lia|]. right. split; f_equal; lia.
  Qed.

  (** A centre is on a segment only at its ends. *)
  Lemma meet_centre p a b x y : touches a b -> between p p x y -> between a b x y -> p = a \/ p = b.
  Proof.
    intros Ha (t & Ht & -> & ->) (u & Hu & Ex & Ey). destruct p as [p1 p2], a as [a1 a2], b as [b1 b2]. unfold touches in *. cbn [row col] in *.
    remember (b1 - a1) as f1 eqn:F1. remember (b2 - a2) as f2 eqn:F2. remember (p1 - a1) as e1 eqn:E1. remember (p2 - a2) as e2 eqn:E2.
    assert (p1 = a1 + e1) as -> by lia. assert (p2 = a2 + e2) as -> by lia. assert (b1 = a1 + f1) as -> by lia. assert (b2 = a2 + f2) as -> by lia.
    clear F1 F2 E1 E2. rewrite !plus_IZR in Ex, Ey. assert (Ex' : (IZR e1 = u * IZR f1)%R) by lra. assert (Ey' : (IZR e2 = u * IZR f2)%R) by lra.
    assert (H3 : -1 <= f1 <= 1) by lia. assert (H4 : -1 <= f2 <= 1) by lia.
    assert (Bd : forall k, -1 <= k <= 1 -> (-1 <= u * IZR k <= 1)%R).
    { clear - Hu. intros k Hk. assert (k = -1 \/ k = 0 \/ k = 1) as [->|[->| ->]] by lia; lra. }
    pose proof (Bd f1 H3) as B3. pose proof (Bd f2 H4) as B4.
    assert (-1 <= e1 <= 1) by (split; apply le_IZR; lra). assert (-1 <= e2 <= 1) by (split; apply le_IZR; lra). clear Ex Ey Bd B3 B4.
    assert (K : e1 = 0 /\ e2 = 0 \/ e1 = f1 /\ e2 = f2).
    { assert (C3 : f1 = -1 \/ f1 = 0 \/ f1 = 1) by lia. assert (C4 : f2 = -1 \/ f2 = 0 \/ f2 = 1) by lia.
      assert (C5 : e1 = -1 \/ e1 = 0 \/ e1 = 1) by lia. assert (C6 : e2 = -1 \/ e2 = 0 \/ e2 = 1) by lia.
      destruct C3 as [->|[->| ->]], C4 as [->|[->| ->]]; try lia; destruct C5 as [->|[->| ->]], C6 as [->|[->| ->]]; try lia; exfalso; clear - Ex' Ey' Hu; lra. }
    clear - K. destruct K as [[-> ->]|[-> ->]]; [left|right]; f_equal; lia.
  Qed.

  Lemma centre_centre p a x y : between p p x y -> between a a x y -> p = a.
  Proof.
    intros (t & _ & -> & ->) (u & _ & Ex & Ey). destruct p as [p1 p2], a as [a1 a2]. cbn [row col] in *.
    f_equal; apply eq_IZR; lra.
  Qed.

  (** * Walks *)
  Definition free (c : cell) : Prop := inside m n c /\ occ c = false.

  Lemma walk_free l : forall p q, free p -> walk m n occ p l q -> Forall free (p :: l) /\ free q.
  Proof.
    induction l as [|c l IH]; intros p q Hp H; cbn [walk] in H.
    - subst. split; auto.
    - destruct H as [(Hi & _ & Ho & _) H]. assert (Fc : free c) by (split; auto). destruct (IH c q Fc H) as [A B]. split; auto.
  Qed.

  Lemma walk_next l : forall p q a b, walk m n occ p l q -> next (p :: l) a b -> grid_step m n occ a b.
  Proof.
    induction l as [|c l IH]; intros p q a b H (l1 & l2 & E); cbn [walk] in H.
    - destruct l1 as [|x [|y l1]]; discriminate.
    - destruct l1 as [|x l1]; cbn [app] in E.
      + injection E as -> -> _. apply H.
      + injection E as -> E. apply (IH c q); [apply H|]. now exists l1, l2.
  Qed.

  Lemma walk_same vs ls : outline vs ls -> walled m n occ ls -> forall l p q, free p -> walk m n occ p l q ->
    Forall (fun c => enclosed ls c = enclosed ls p) (p :: l).
  Proof.
    intros Ho Hw l. induction l as [|c l IH]; intros p q [Hp Fp] H; cbn [walk] in H; [constructor; auto|].
    destruct H as [Hs H]. pose proof (step_side vs ls p c Ho Hw Hp Fp Hs) as Q.
    assert (Fc : free c) by (split; apply Hs). constructor; auto.
    specialize (IH c q Fc H). eapply Forall_impl; [|exact IH]. cbn. intros a E. congruence.
  Qed.

  (** Steps without contact with the outline, of a list of free cells. *)
  Definition good_next (path : list cell) : Prop :=
    Forall free path /\ forall a b, next path a b -> a = b \/ grid_step m n occ a b \/ grid_step m n occ b a.

  Lemma good_apart vs ls path : outline vs ls -> walled m n occ ls -> good_next path ->
    forall l x y, In l ls -> on_line l x y -> ~ on_line path x y.
  Proof.
    intros Ho Hw [Hf Hn] l x y Hl (a & b & Hab & Xab) (p & q & Hpq & Xpq).
    destruct (outline_chain _ _ _ Ho Hl) as (v & w & _ & Hc). rewrite Forall_forall in Hf.
    assert (Ia : In a l /\ In b l) by (destruct Hab as [Q|[Q <-]]; [now apply next_In|auto]).
    assert (Ip : In p path /\ In q path) by (destruct Hpq as [Q|[Q <-]]; [now apply next_In|auto]).
    assert (N : forall c d, In c l -> In d path -> c <> d).
    { intros c d Hc' Hd ->. destruct (Hf _ Hd) as [I F]. rewrite (Hw _ _ Hl Hc' I) in F. discriminate. }
    assert (Gp : p = q \/ grid_step m n occ p q \/ grid_step m n occ q p) by (destruct Hpq as [Q|[_ Q]]; auto).
    destruct Hab as [Hab|[_ <-]].
    - pose proof (next_touches _ _ _ Hc Hab) as Tab.
      assert (Sq : forall p q, free p -> free q -> grid_step m n occ p q -> ~ squeezed p q a b).
      { intros p' q' [Hp _] [Hq _] (_ & _ & _ & Hs) (N1 & M1 & E). apply Hs. split; auto. split; auto.
        assert (inside m n (Cell (row q') (col p')) /\ inside m n (Cell (row p') (col q'))) as [I1 I2] by (unfold inside in *; cbn [row col]; lia).
        destruct E as [[-> ->]|[-> ->]]; split; eapply Hw; eauto; apply Ia. }
      destruct Gp as [<-|Gp].
      + destruct (meet_centre _ _ _ _ _ Tab Xpq Xab) as [->|E]; [apply (N a a); tauto|subst; apply (N b b); tauto].
      + assert (Tpq : touches p q) by (destruct Gp as [Gp|Gp]; [|apply touches_sym]; apply Gp).
        destruct (meet _ _ _ _ _ _ Tpq Tab Xpq Xab) as [E|[E|[E|[E|E]]]]; try (revert E; apply N; tauto).
        destruct Gp as [Gp|Gp]; revert E; [apply Sq; auto; apply Hf; tauto|]. intros E. apply squeezed_sym in E. revert E. apply Sq; auto; apply Hf; tauto.
    - destruct Gp as [<-|Gp].
      + pose proof (centre_centre _ _ _ _ Xpq Xab). subst. apply (N a a); tauto.
      + assert (Tpq : touches p q) by (destruct Gp as [Gp|Gp]; [|apply touches_sym]; apply Gp).
        destruct (meet_centre _ _ _ _ _ Tpq Xab Xpq) as [E|E]; revert E; apply N; tauto.
  Qed.

  Lemma walk_side vs ls : outline vs ls -> walled m n occ ls -> forall l p q, inside m n p -> occ p = false -> walk m n occ p l q ->
    on_one_side ls (p :: l) /\ enclosed ls q = enclosed ls p.
  Proof.
    intros Ho Hw l p q Hp Fp H. pose proof (walk_same vs ls Ho Hw l p q (conj Hp Fp) H) as Q. pose proof Q as Q'. rewrite Forall_forall in Q'.
    assert (Eq : In q (p :: l)).
    { clear - H. revert p H. induction l as [|c l IH]; intros p H; cbn [walk] in H; [subst; now left|]. right. apply IH. apply H. }
    split; [split|].
    - intros c d Hc Hd. now rewrite (Q' _ Hc), (Q' _ Hd).
    - apply (good_apart vs ls _ Ho Hw). split; [apply (walk_free _ _ _ (conj Hp Fp) H)|]. intros a b Hab. right. left. eapply walk_next; eauto.
    - now apply Q'.
  Qed.
End Step.
