From Verif Require Import Base Grid_model Grid_spec Grid_proofs Raster_model Raster_spec.
From Coq Require Import ZifyBool ZifyNat.
Open Scope Z_scope.

(** The state of the loop after [i] of the steps: [k] minor steps were made. *)
Section Loop.
  Context (steep : bool) (dx dy ystep x0 y0 : Z).
  Context (Hdx : 0 <= dy <= dx) (Hstep : ystep = 1 \/ ystep = -1).
  Let e0 := Z.quot dx 2.

  Definition good (i k err : Z) : Prop := err = e0 - i * dy + k * dx /\ 0 <= err /\ (err < dx \/ (dx = 0 /\ k = 0)) /\ 0 <= k.
  Definition mk (x y : Z) : cell := if steep then Cell y x else Cell x y.

  Lemma e0_bounds : 0 <= e0 /\ 2 * e0 <= dx <= 2 * e0 + 1.
  Proof. unfold e0. rewrite Z.quot_div_nonneg by lia. lia. Qed.

  Lemma good_init : good 0 0 e0.
  Proof. pose proof e0_bounds. unfold good. lia. Qed.

  Lemma good_step i k err : good i k err ->
    good (i + 1) (if err - dy <? 0 then k + 1 else k) (if err - dy <? 0 then err - dy + dx else err - dy).
  Proof.
    intros (He & H0 & H1 & Hk). unfold good. destruct (Z.ltb_spec (err - dy) 0).
    - assert (dx <> 0) by lia. repeat split; try nia.
    - repeat split; try nia.
  Qed.

  Lemma good_near i k err : good i k err -> 2 * Z.abs (k * dx - i * dy) <= dx.
  Proof.
    intros (He & H0 & H1 & Hk). pose proof e0_bounds. destruct H1 as [H1|[H1 ->]]; [lia|].
    assert (dy = 0) by lia. subst dy. lia.
  Qed.

  Lemma good_end k err : good dx k err -> k = dy.
  Proof.
    intros (He & H0 & H1 & Hk). pose proof e0_bounds. destruct (Z.eq_dec dx 0) as [E|E].
    - nia.
    - assert (H2 : -dx < (k - dy) * dx < dx) by nia. nia.
  Qed.

  Lemma bres_all n : forall i k err, good i k err ->
    forall c, In c (bresenham n steep dx dy ystep (x0 + i) (y0 + ystep * k) err) ->
    exists i' k' err', good i' k' err' /\ i <= i' < i + Z.of_nat n /\ c = mk (x0 + i') (y0 + ystep * k').
  Proof.
    induction n as [|n IH]; intros i k err Hg c Hc; cbn [bresenham] in Hc; [easy|].
    destruct Hc as [<-|Hc].
    - exists i, k, err. split; [exact Hg|]. split; [lia|]. reflexivity.
    - pose proof (good_step _ _ _ Hg) as Hg'.
      replace (x0 + i + 1) with (x0 + (i + 1)) in Hc by lia.
      destruct (Z.ltb_spec (err - dy) 0).
      + replace (y0 + ystep * k + ystep) with (y0 + ystep * (k + 1)) in Hc by lia.
        destruct (IH _ _ _ Hg' c Hc) as (i' & k' & err' & H1 & H2 & H3). exists i', k', err'. split; [exact H1|]. split; [lia|auto].
      + destruct (IH _ _ _ Hg' c Hc) as (i' & k' & err' & H1 & H2 & H3). exists i', k', err'. split; [exact H1|]. split; [lia|auto].
  Qed.

  Lemma bres_length n : forall x y err, length (bresenham n steep dx dy ystep x y err) = n.
  Proof. induction n as [|n IH]; intros; cbn; auto. Qed.

  Lemma bres_consecutive n : forall x y err,
    consecutive touches (bresenham n steep dx dy ystep x y err) /\
    consecutive (fun a b => (if steep then col b else row b) = (if steep then col a else row a) + 1)
      (bresenham n steep dx dy ystep x y err).
  Proof.
    induction n as [|n IH]; intros x y err; [cbn; auto|].
    cbn [bresenham]. set (y' := if err - dy <? 0 then y + ystep else y). set (err' := if err - dy <? 0 then _ else _).
    specialize (IH (x + 1) y' err'). destruct n as [|n]; [cbn; auto|].
    cbn [bresenham] in *. destruct IH as [IH1 IH2]. cbn [consecutive] in *.
    split; (split; [|assumption]).
    - unfold touches. subst y'. destruct steep, (err - dy <? 0); cbn; lia.
    - destruct steep; cbn; lia.
  Qed.

  Lemma bres_last n : forall i k err d, good i k err ->
    exists k' err', good (i + Z.of_nat n) k' err' /\
      last (bresenham (S n) steep dx dy ystep (x0 + i) (y0 + ystep * k) err) d = mk (x0 + i + Z.of_nat n) (y0 + ystep * k').
  Proof.
    induction n as [|n IH]; intros i k err d Hg.
    - exists k, err. rewrite Z.add_0_r. split; auto. cbn. now rewrite Z.add_0_r.
    - pose proof (good_step _ _ _ Hg) as Hg'.
      cbn [bresenham]. cbn [bresenham] in IH.
      set (k1 := if err - dy <? 0 then k + 1 else k) in *. set (e1 := if err - dy <? 0 then err - dy + dx else err - dy) in *.
      destruct (IH (i + 1) k1 e1 d Hg') as (k' & err' & H1 & H2).
      exists k', err'. split; [replace (i + Z.of_nat (S n)) with (i + 1 + Z.of_nat n) by lia; exact H1|].
      replace (x0 + i + Z.of_nat (S n)) with (x0 + (i + 1) + Z.of_nat n) by lia. rewrite <- H2.
      replace (x0 + i + 1) with (x0 + (i + 1)) by lia.
      assert (Hy : (if err - dy <? 0 then y0 + ystep * k + ystep else y0 + ystep * k) = y0 + ystep * k1).
      { subst k1. destruct (err - dy <? 0); lia. }
      rewrite Hy. reflexivity.
  Qed.
End Loop.

Lemma bres_line (steep : bool) (x0 y0 x1 y1 : Z) : x0 <= x1 -> Z.abs (y1 - y0) <= x1 - x0 ->
  let l := bresenham (Z.to_nat (x1 - x0 + 1)) steep (x1 - x0) (Z.abs (y1 - y0)) (if y0 <? y1 then 1 else -1) x0 y0
             (Z.quot (x1 - x0) 2) in
  Z.of_nat (length l) = x1 - x0 + 1 /\
  hd_error l = Some (mk steep x0 y0) /\ (forall d, last l d = mk steep x1 y1) /\
  consecutive touches l /\
  consecutive (fun a b => (if steep then col b else row b) = (if steep then col a else row a) + 1) l /\
  forall c, In c l ->
    2 * Z.abs ((if steep then col c - x0 else row c - x0) * (y1 - y0) - (if steep then row c - y0 else col c - y0) * (x1 - x0))
      <= x1 - x0.
Proof.
  intros Hx Hy. set (dx := x1 - x0). set (dy := Z.abs (y1 - y0)). set (ys := if y0 <? y1 then 1 else -1).
  assert (Hd : 0 <= dy <= dx) by (subst dx dy; lia).
  assert (Hs : ys = 1 \/ ys = -1) by (subst ys; destruct (y0 <? y1); auto).
  assert (Hyy : y0 + ys * dy = y1) by (subst ys dy; destruct (Z.ltb_spec y0 y1); lia).
  pose proof (good_init dx dy Hd) as Hg.
  replace (Z.to_nat (dx + 1)) with (S (Z.to_nat dx)) by lia. cbv zeta. split; [|split; [|split; [|split; [|split]]]].
  - rewrite bres_length. lia.
  - reflexivity.
  - intros d. destruct (bres_last steep dx dy ys x0 y0 Hd (Z.to_nat dx) 0 0 _ d Hg) as (k & err & H1 & H2).
    replace (0 + Z.of_nat (Z.to_nat dx)) with dx in H1 by lia. apply good_end in H1; auto. subst k.
    replace (x0 + 0) with x0 in H2 by lia. replace (y0 + ys * 0) with y0 in H2 by lia. rewrite H2.
    rewrite Hyy. replace (x0 + Z.of_nat (Z.to_nat dx)) with x1 by (subst dx; lia). reflexivity.
  - now apply bres_consecutive.
  - now apply bres_consecutive.
  - intros c Hc. replace x0 with (x0 + 0) in Hc at 1 by lia. replace y0 with (y0 + ys * 0) in Hc at 1 by lia.
    apply (bres_all steep dx dy ys x0 y0 Hd _ 0 0 _ Hg) in Hc as (i & k & err & Hg' & _ & ->).
    pose proof (good_near _ _ Hd _ _ _ Hg') as Hn.
    replace (y1 - y0) with (ys * dy) by lia.
    destruct steep; cbn [mk row col];
      replace (x0 + i - x0) with i by lia; replace (y0 + ys * k - y0) with (ys * k) by lia;
      destruct Hs as [-> | ->]; lia.
Qed.

Lemma line_cells_ok p q : discrete_line p q (line_cells p q).
Proof.
  destruct p as [px py], q as [qx qy]. unfold line_cells. cbn [row col].
  destruct (Z.gtb_spec (Z.abs (qy - py)) (Z.abs (qx - px))) as [Hst|Hst]; cbv beta iota.
  - destruct (Z.gtb_spec py qy) as [Hsw|Hsw]; cbv beta iota.
    + destruct (bres_line true qy qx py px) as (H1 & H2 & H3 & H4 & H5 & H6); [lia|lia|].
      cbn [mk] in *. apply Build_discrete_line; [| |exact H4| |].
      * rewrite H1. unfold major. cbn. lia.
      * right. split; [exact H2|apply H3].
      * unfold major_coord. cbn [row col]. destruct (Z.gtb_spec (Z.abs (qy - py)) (Z.abs (qx - px))); [exact H5|lia].
      * intros c Hc. specialize (H6 c Hc). unfold near_line, major. cbn [row col] in *.
        replace (Z.max (Z.abs (qx - px)) (Z.abs (qy - py))) with (py - qy) by lia.
        replace ((row c - px) * (qy - py) - (col c - py) * (qx - px)) with
          ((col c - qy) * (px - qx) - (row c - qx) * (py - qy)) by ring. exact H6.
    + destruct (bres_line true py px qy qx) as (H1 & H2 & H3 & H4 & H5 & H6); [lia|lia|].
      cbn [mk] in *. apply Build_discrete_line; [| |exact H4| |].
      * rewrite H1. unfold major. cbn. lia.
      * left. split; [exact H2|apply H3].
      * unfold major_coord. cbn [row col]. destruct (Z.gtb_spec (Z.abs (qy - py)) (Z.abs (qx - px))); [exact H5|lia].
      * intros c Hc. specialize (H6 c Hc). unfold near_line, major. cbn [row col] in *.
        replace (Z.max (Z.abs (qx - px)) (Z.abs (qy - py))) with (qy - py) by lia.
        rewrite <- Z.abs_opp.
        replace (- ((row c - px) * (qy - py) - (col c - py) * (qx - px))) with
          ((col c - py) * (qx - px) - (row c - px) * (qy - py)) by ring. exact H6.
  - destruct (Z.gtb_spec px qx) as [Hsw|Hsw]; cbv beta iota.
    + destruct (bres_line false qx qy px py) as (H1 & H2 & H3 & H4 & H5 & H6); [lia|lia|].
      cbn [mk] in *. apply Build_discrete_line; [| |exact H4| |].
      * rewrite H1. unfold major. cbn. lia.
      * right. split; [exact H2|apply H3].
      * unfold major_coord. cbn [row col]. destruct (Z.gtb_spec (Z.abs (qy - py)) (Z.abs (qx - px))); [lia|exact H5].
      * intros c Hc. specialize (H6 c Hc). unfold near_line, major. cbn [row col] in *.
        replace (Z.max (Z.abs (qx - px)) (Z.abs (qy - py))) with (px - qx) by lia.
        rewrite <- Z.abs_opp.
        replace (- ((row c - px) * (qy - py) - (col c - py) * (qx - px))) with
          ((row c - qx) * (py - qy) - (col c - qy) * (px - qx)) by ring. exact H6.
    + destruct (bres_line false px py qx qy) as (H1 & H2 & H3 & H4 & H5 & H6); [lia|lia|].
      cbn [mk] in *. apply Build_discrete_line; [| |exact H4| |].
      * rewrite H1. unfold major. cbn. lia.
      * left. split; [exact H2|apply H3].
      * unfold major_coord. cbn [row col]. destruct (Z.gtb_spec (Z.abs (qy - py)) (Z.abs (qx - px))); [lia|exact H5].
      * intros c Hc. specialize (H6 c Hc). unfold near_line, major. cbn [row col] in *.
        replace (Z.max (Z.abs (qx - px)) (Z.abs (qy - py))) with (qx - px) by lia. exact H6.
Qed.

Lemma in_range_inside m n c : in_range m n c = true <-> inside m n c.
Proof. unfold in_range, inside. lia. Qed.

Lemma rasterize_order m n p q : exists l keep, discrete_line p q l /\ (forall c, keep c = true <-> inside m n c) /\
  rasterize_line m n p q = filter keep l.
Proof.
  exists (line_cells p q), (in_range m n). split; [apply line_cells_ok|]. split; [intros; apply in_range_inside|reflexivity].
Qed.

Lemma rasterize_spec m n p q :
  exists l, discrete_line p q l /\ forall c, In c (rasterize_line m n p q) <-> In c l /\ inside m n c.
Proof.
  exists (line_cells p q). split; [apply line_cells_ok|]. intros c. unfold rasterize_line.
  rewrite filter_In, in_range_inside. reflexivity.
Qed.

Lemma hd_In {T} (l : list T) a : hd_error l = Some a -> In a l.
Proof. destruct l; cbn; [discriminate|]. intros H. injection H as ->. auto. Qed.
Lemma last_In {T} (l : list T) d : l <> [] -> In (last l d) l.
Proof.
  induction l as [|a [|b l] IH]; intros H; [easy|cbn; auto|]. right. apply IH. discriminate.
Qed.

Lemma line_has_ends p q l : discrete_line p q l -> In p l /\ In q l.
Proof.
  intros [Hl He _ _ _]. assert (Hne : l <> []) by (intros ->; unfold major in *; cbn in Hl; lia).
  destruct He as [[H1 H2]|[H1 H2]].
  - split; [now apply hd_In|]. rewrite <- H2. now apply last_In.
  - split; [|now apply hd_In]. rewrite <- H2. now apply last_In.
Qed.

(** ** Polygons *)
Lemma polygon_loop_spec m n vs : vs <> [] -> forall k i, exists l, polygon_loop m n vs k i = Ok l /\
  forall c, In c l <-> exists j a b, (i <= j < i + k)%nat /\ nth_error vs (Nat.modulo j (length vs)) = Some a /\
    nth_error vs (Nat.modulo (j + 1) (length vs)) = Some b /\ In c (rasterize_line m n a b).
Proof.
  intros Hne. assert (Hlen : length vs <> O) by (destruct vs; [easy|discriminate]).
  assert (Hget : forall j, exists a, nth_error vs (Nat.modulo j (length vs)) = Some a).
  { intros j. destruct (nth_error vs (Nat.modulo j (length vs))) eqn:E; eauto.
    apply nth_error_None in E. pose proof (Nat.mod_upper_bound j (length vs) Hlen). lia. }
  induction k as [|k IH]; intros i.
  - exists []. split; auto. intros c. split; [easy|]. intros (j & _ & _ & Hj & _). lia.
  - destruct (Hget i) as [a Ha]. destruct (Hget (i + 1)%nat) as [b Hb]. destruct (IH (i + 1)%nat) as (l & Hl & Hin).
    cbn [polygon_loop]. unfold vget. rewrite Ha, Hb. cbn [bind]. rewrite Hl. cbn [bind].
    eexists. split; [reflexivity|]. intros c. rewrite in_app_iff, Hin. split.
    + intros [H|(j & a' & b' & Hj & H)].
      * exists i, a, b. split; [lia|auto].
      * exists j, a', b'. split; [lia|auto].
    + intros (j & a' & b' & Hj & H1 & H2 & H3). destruct (Nat.eq_dec j i) as [->|].
      * left. congruence.
      * right. exists j, a', b'. split; [lia|auto].
Qed.

Lemma polygon_spec m n vs : exists l, polygon_cells m n vs = Ok l /\
  forall c, In c l <-> exists j a b, (j < length vs)%nat /\ nth_error vs j = Some a /\
    nth_error vs (Nat.modulo (j + 1) (length vs)) = Some b /\ In c (rasterize_line m n a b).
Proof.
  destruct vs as [|v vs'] eqn:E.
  - exists []. split; auto. intros c. split; [easy|]. intros (j & _ & _ & Hj & _). cbn in Hj. lia.
  - rewrite <- E in *. destruct (polygon_loop_spec m n vs ltac:(congruence) (length vs) 0) as (l & Hl & Hin).
    exists l. split; [exact Hl|]. intros c. rewrite Hin. split; intros (j & a & b & Hj & H1 & H2 & H3).
    + exists j, a, b. rewrite Nat.mod_small in H1 by lia. repeat split; auto; lia.
    + exists j, a, b. rewrite Nat.mod_small by lia. repeat split; auto; lia.
Qed.

Lemma polygon_vertices m n vs l v : polygon_cells m n vs = Ok l -> In v vs -> inside m n v -> In v l.
Proof.
  intros Hl Hv Hi. destruct (polygon_spec m n vs) as (l' & Hl' & Hin). assert (l' = l) by congruence. subst l'.
  apply Hin. apply In_nth_error in Hv as [j Hj]. assert (Hlen : (j < length vs)%nat) by (apply nth_error_Some; congruence).
  destruct (nth_error vs (Nat.modulo (j + 1) (length vs))) as [b|] eqn:Eb.
  - exists j, v, b. repeat split; auto. destruct (rasterize_spec m n v b) as (ln & Hln & Hr). apply Hr. split; auto.
    now apply (line_has_ends v b ln).
  - apply nth_error_None in Eb. pose proof (Nat.mod_upper_bound (j + 1) (length vs)). lia.
Qed.

Lemma polygon_inside m n vs l c : polygon_cells m n vs = Ok l -> In c l -> inside m n c.
Proof.
  intros Hl Hc. destruct (polygon_spec m n vs) as (l' & Hl' & Hin). assert (l' = l) by congruence. subst l'.
  apply Hin in Hc as (j & a & b & _ & _ & _ & H). unfold rasterize_line in H. apply filter_In in H as [_ H].
  now apply in_range_inside.
Qed.

Lemma composite_spec m n shapes : exists l, composite_cells m n shapes = Ok l /\
  forall c, In c l <-> exists vs l', In vs shapes /\ polygon_cells m n vs = Ok l' /\ In c l'.
Proof.
  induction shapes as [|vs shapes IH].
  - exists []. split; auto. intros c. split; [easy|]. intros (vs & l & [] & _).
  - destruct IH as (l & Hl & Hin). destruct (polygon_spec m n vs) as (a & Ha & _). cbn [composite_cells].
    rewrite Ha, Hl. cbn [bind]. exists (a ++ l). split; auto. intros c. rewrite in_app_iff, Hin. split.
    + intros [H|(vs' & l' & H1 & H2 & H3)]; [exists vs, a|exists vs', l']; cbn; auto.
    + intros (vs' & l' & [->|H1] & H2 & H3); [left; congruence|right; eauto].
Qed.
