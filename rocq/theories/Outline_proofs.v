(** The cells of an obstacle follow its outline. *)
From Coq Require Import Reals Lra Lia.
From Verif Require Import Base RealBase Grid_model Grid_spec Coords_model Coords_proofs Pose_model Straight_model Straight_spec Raster_model Raster_spec Raster_proofs
  Shape_model Shape_spec Shape_proofs.
From Coq Require Import ZifyBool ZifyNat ZifyN.
Local Open Scope R_scope.

(** * Discrete lines. *)
Lemma climb {T} (g : T -> Z) (l : list T) : forall h, consecutive (fun a b => g b = g a + 1)%Z l -> hd_error l = Some h ->
  forall i c, nth_error l i = Some c -> g c = (g h + Z.of_nat i)%Z.
Proof.
  induction l as [|a l IH]; intros h Hc Hh i c Hi; [discriminate|]. cbn in Hh. injection Hh as <-.
  destruct i as [|i]; cbn [nth_error] in Hi; [injection Hi as <-; lia|]. destruct l as [|b l]; [destruct i; discriminate|].
  destruct Hc as [H1 H2]. rewrite (IH b H2 eq_refl i c Hi). lia.
Qed.

Lemma last_nth {T} (l : list T) d : l <> [] -> nth_error l (length l - 1) = Some (last l d).
Proof.
  induction l as [|a l IH]; [congruence|]. intros _. destruct l as [|b l]; [reflexivity|].
  replace (length (a :: b :: l) - 1)%nat with (S (length (b :: l) - 1)) by (cbn; lia). cbn [nth_error]. rewrite IH by discriminate. reflexivity.
Qed.

Lemma line_coords p q l : discrete_line p q l ->
  Z.abs (major_coord p q q - major_coord p q p) = major p q /\
  (forall c, In c l -> Z.min (major_coord p q p) (major_coord p q q) <= major_coord p q c <= Z.max (major_coord p q p) (major_coord p q q))%Z /\
  (forall k, Z.min (major_coord p q p) (major_coord p q q) <= k <= Z.max (major_coord p q p) (major_coord p q q) -> exists c, In c l /\ major_coord p q c = k)%Z.
Proof.
  intros [Hl He Hc Hm _]. set (g := major_coord p q) in *.
  assert (M : Z.abs (g q - g p) = major p q) by (unfold g, major_coord, major; destruct (Z.gtb_spec (Z.abs (col q - col p)) (Z.abs (row q - row p))); lia).
  assert (Ne : l <> []) by (intros ->; cbn in Hl; unfold major in Hl; lia).
  assert (K : exists a b, hd_error l = Some a /\ nth_error l (length l - 1) = Some b /\ ((a = p /\ b = q) \/ (a = q /\ b = p))).
  { destruct He as [[E1 E2]|[E1 E2]].
    - exists p, q. rewrite (last_nth l p Ne), E2. auto.
    - exists q, p. rewrite (last_nth l q Ne), E2. auto. }
  destruct K as (a & b & Ea & Eb & Hab). pose proof (climb g l a Hm Ea) as C. assert (Gb := C _ _ Eb).
  assert (G : g a = Z.min (g p) (g q) /\ g b = Z.max (g p) (g q)) by (destruct Hab as [[-> ->]|[-> ->]]; lia).
  split; [exact M|]. split.
  - intros c Hin. apply In_nth_error in Hin. destruct Hin as (i & Ei). assert (i < length l)%nat by (apply nth_error_Some; congruence).
    rewrite (C _ _ Ei). lia.
  - intros k Hk. destruct (nth_error l (Z.to_nat (k - g a))) as [c|] eqn:Ec.
    + exists c. split; [eapply nth_error_In; eauto|]. rewrite (C _ _ Ec). lia.
    + exfalso. apply nth_error_None in Ec. lia.
Qed.

Definition lerp (a b t : R) : R := a + t * (b - a).

Lemma lerp_between a b t : 0 <= t <= 1 -> Rmin a b <= lerp a b t <= Rmax a b.
Proof. intros Ht. unfold lerp, Rmin, Rmax. destruct (Rle_dec a b); split; nra. Qed.

Lemma round_between a b x : Rmin (IZR a) (IZR b) <= x <= Rmax (IZR a) (IZR b) ->
  exists k, (Z.min a b <= k <= Z.max a b)%Z /\ Rabs (IZR k - x) <= 1 / 2.
Proof.
  intros Hx. exists (Rfloor (x + 1 / 2)). pose proof (Rfloor_spec (x + 1 / 2)) as [F1 F2]. split; [|apply Rabs_le; lra].
  assert (L : IZR (Z.min a b) <= x). { destruct Hx as [Hx _]. unfold Rmin in Hx. destruct (Rle_dec (IZR a) (IZR b)) as [O|O].
    - apply le_IZR in O. now rewrite Z.min_l.
    - apply Rnot_le_lt, lt_IZR in O. rewrite Z.min_r by lia. exact Hx. }
  assert (U : x <= IZR (Z.max a b)). { destruct Hx as [_ Hx]. unfold Rmax in Hx. destruct (Rle_dec (IZR a) (IZR b)) as [O|O].
    - apply le_IZR in O. now rewrite Z.max_r.
    - apply Rnot_le_lt, lt_IZR in O. rewrite Z.max_l by lia. exact Hx. }
  set (k := Rfloor (x + 1 / 2)) in *. split.
  - assert (IZR (Z.min a b) < IZR (k + 1)) by (rewrite plus_IZR; lra). apply lt_IZR in H. lia.
  - assert (IZR k < IZR (Z.max a b + 1)) by (rewrite plus_IZR; lra). apply lt_IZR in H. lia.
Qed.

(** The minor coordinate, for [dx <> 0]. *)
Lemma minor_near x0 y0 x1 y1 k y X Y t : (Z.abs (y1 - y0) <= Z.abs (x1 - x0))%Z -> x1 <> x0 ->
  (2 * Z.abs ((k - x0) * (y1 - y0) - (y - y0) * (x1 - x0)) <= Z.abs (x1 - x0))%Z ->
  X = lerp (IZR x0) (IZR x1) t -> Y = lerp (IZR y0) (IZR y1) t ->
  forall e, Rabs (IZR k - X) <= e -> Rabs (IZR y - Y) <= 1 / 2 + e.
Proof.
  intros Hd Hn Hc -> -> e He. set (dx := IZR (x1 - x0)). set (dy := IZR (y1 - y0)).
  assert (Hdx : 0 < Rabs dx). { apply Rabs_pos_lt. unfold dx. apply not_0_IZR. lia. }
  assert (Hdy : Rabs dy <= Rabs dx) by (unfold dx, dy; rewrite <- !abs_IZR; now apply IZR_le).
  assert (Hcr : 2 * Rabs (IZR (k - x0) * dy - IZR (y - y0) * dx) <= Rabs dx).
  { unfold dx, dy. rewrite <- !mult_IZR, <- minus_IZR, <- !abs_IZR. rewrite <- (mult_IZR 2). now apply IZR_le. }
  set (X := lerp (IZR x0) (IZR x1) t) in *. set (Y := lerp (IZR y0) (IZR y1) t).
  assert (E : (IZR y - Y) * dx = (IZR k - X) * dy - (IZR (k - x0) * dy - IZR (y - y0) * dx)).
  { unfold X, Y, lerp, dx, dy. rewrite !minus_IZR. ring. }
  assert (A : Rabs ((IZR y - Y) * dx) <= e * Rabs dx + Rabs dx / 2).
  { rewrite E. unfold Rminus at 1. eapply Rle_trans; [apply Rabs_triang|]. rewrite Rabs_Ropp. rewrite Rabs_mult.
    assert (Rabs (IZR k - X) * Rabs dy <= e * Rabs dx). { apply Rmult_le_compat; auto using Rabs_pos. } lra. }
  rewrite Rabs_mult in A. apply Rmult_le_reg_r with (Rabs dx); [exact Hdx|]. lra.
Qed.

Lemma line_single p q l : discrete_line p q l -> major p q = 0%Z -> l = [p] /\ p = q.
Proof.
  intros [Hl He _ _ _] M. rewrite M in Hl. destruct l as [|a [|b l]]; cbn [length] in Hl; try lia.
  assert (p = q) by (destruct p as [p1 p2], q as [q1 q2]; unfold major in M; cbn in M; f_equal; lia). subst q.
  destruct He as [[E _]|[E _]]; cbn in E; injection E as ->; auto.
Qed.

Lemma line_covers p q l t : discrete_line p q l -> 0 <= t <= 1 ->
  exists c, In c l /\ Rabs (IZR (row c) - lerp (IZR (row p)) (IZR (row q)) t) <= 1 /\ Rabs (IZR (col c) - lerp (IZR (col p)) (IZR (col q)) t) <= 1.
Proof.
  intros D Ht. destruct (Z.eq_dec (major p q) 0) as [M|M].
  - destruct (line_single p q l D M) as [-> <-]. exists p. split; [now left|].
    split; (replace (_ - lerp _ _ t) with 0 by (unfold lerp; ring)); rewrite Rabs_R0; lra.
  - destruct (line_coords p q l D) as (A & _ & C). pose proof (dl_near _ _ _ D) as N.
    unfold major_coord in A, C. destruct (Z.gtb_spec (Z.abs (col q - col p)) (Z.abs (row q - row p))) as [G|G].
    + destruct (round_between (col p) (col q) (lerp (IZR (col p)) (IZR (col q)) t)) as (k & Hk & Ek); [now apply lerp_between|].
      destruct (C k Hk) as (c & Ic & Ec). exists c. split; [exact Ic|]. specialize (N c Ic). unfold near_line in N. rewrite Ec. split; [|lra].
      replace 1 with (1 / 2 + 1 / 2) by field.
      refine (minor_near (col p) (row p) (col q) (row q) k (row c) _ _ t _ _ _ eq_refl eq_refl (1 / 2) Ek); unfold major in *; lia.
    + destruct (round_between (row p) (row q) (lerp (IZR (row p)) (IZR (row q)) t)) as (k & Hk & Ek); [now apply lerp_between|].
      destruct (C k Hk) as (c & Ic & Ec). exists c. split; [exact Ic|]. specialize (N c Ic). unfold near_line in N. rewrite Ec. split; [lra|].
      replace 1 with (1 / 2 + 1 / 2) by field.
      refine (minor_near (row p) (col p) (row q) (col q) k (col c) _ _ t _ _ _ eq_refl eq_refl (1 / 2) Ek); unfold major in *; lia.
Qed.

Lemma ratio_between a b k : a <> b -> (Z.min a b <= k <= Z.max a b)%Z -> exists t, 0 <= t <= 1 /\ lerp (IZR a) (IZR b) t = IZR k.
Proof.
  intros Hn Hk. exists ((IZR k - IZR a) / (IZR b - IZR a)). assert (Hd : IZR b - IZR a <> 0) by (rewrite <- minus_IZR; apply not_0_IZR; lia).
  split; [|unfold lerp; field; exact Hd]. destruct (Z_lt_le_dec a b) as [L|L].
  - assert (IZR a < IZR b) by now apply IZR_lt. assert (IZR a <= IZR k) by (apply IZR_le; lia). assert (IZR k <= IZR b) by (apply IZR_le; lia). apply div_unit; lra.
  - assert (IZR b < IZR a) by (apply IZR_lt; lia). assert (IZR k <= IZR a) by (apply IZR_le; lia). assert (IZR b <= IZR k) by (apply IZR_le; lia).
    replace ((IZR k - IZR a) / (IZR b - IZR a)) with ((IZR a - IZR k) / (IZR a - IZR b)) by (field; lra). apply div_unit; lra.
Qed.

Lemma line_close p q l c : discrete_line p q l -> In c l -> exists t, 0 <= t <= 1 /\
  Rabs (IZR (row c) - lerp (IZR (row p)) (IZR (row q)) t) <= 1 / 2 /\ Rabs (IZR (col c) - lerp (IZR (col p)) (IZR (col q)) t) <= 1 / 2.
Proof.
  intros D Ic. destruct (Z.eq_dec (major p q) 0) as [M|M].
  - destruct (line_single p q l D M) as [-> <-]. destruct Ic as [<-|[]]. exists 0. split; [lra|].
    split; (replace (_ - lerp _ _ 0) with 0 by (unfold lerp; ring)); rewrite Rabs_R0; lra.
  - destruct (line_coords p q l D) as (A & B & _). pose proof (dl_near _ _ _ D c Ic) as N. specialize (B c Ic).
    unfold major_coord in A, B. destruct (Z.gtb_spec (Z.abs (col q - col p)) (Z.abs (row q - row p))) as [G|G].
    + destruct (ratio_between (col p) (col q) (col c)) as (t & Ht & Et); [lia|exact B|]. exists t. split; [exact Ht|].
      assert (Z : Rabs (IZR (col c) - lerp (IZR (col p)) (IZR (col q)) t) <= 0) by (rewrite Et; replace (_ - _) with 0 by ring; rewrite Rabs_R0; lra).
      split; [|lra]. replace (1 / 2) with (1 / 2 + 0) by ring. unfold near_line, major in N.
      refine (minor_near (col p) (row p) (col q) (row q) (col c) (row c) _ _ t _ _ _ eq_refl eq_refl 0 Z); lia.
    + destruct (ratio_between (row p) (row q) (row c)) as (t & Ht & Et); [lia|exact B|]. exists t. split; [exact Ht|].
      assert (Z : Rabs (IZR (row c) - lerp (IZR (row p)) (IZR (row q)) t) <= 0) by (rewrite Et; replace (_ - _) with 0 by ring; rewrite Rabs_R0; lra).
      split; [lra|]. replace (1 / 2) with (1 / 2 + 0) by ring. unfold near_line, major in N.
      refine (minor_near (row p) (col p) (row q) (col q) (row c) (col c) _ _ t _ _ _ eq_refl eq_refl 0 Z); lia.
Qed.

(** * Positions. *)
Lemma cast_near x n : cast_int x = Ok n -> Rabs (x - IZR n) < 1.
Proof. intros E. apply cast_int_ok in E. destruct E as [-> _]. apply Rabs_def1; destruct (Rtrunc_spec x) as [(_ & H & _)|(_ & H & _)]; lra. Qed.

(** Grid coordinates of a position. *)
Definition gx (f : frames) (q : point) : R := (fst q - fst (fr_world_grid f)) / fr_res f.
Definition gy (f : frames) (q : point) : R := (snd q - snd (fr_world_grid f)) / fr_res f.

Lemma to_cell_near f v c : world_to_cell f v false = Ok c -> Rabs (gx f v - IZR (row c)) < 1 /\ Rabs (gy f v - IZR (col c)) < 1.
Proof.
  unfold world_to_cell, grid_to_cell. cbn [fst snd]. intros E.
  destruct (cast_int ((fst v - fst (fr_world_grid f)) / fr_res f)) as [r| | |] eqn:E1; try discriminate. cbn [bind] in E.
  destruct (cast_int ((snd v - snd (fr_world_grid f)) / fr_res f)) as [k| | |] eqn:E2; try discriminate. cbn [bind negb] in E.
  injection E as <-. cbn [row col]. split; now apply cast_near.
Qed.

Lemma gx_along f a b t : fr_res f <> 0 -> gx f (along a b t) = lerp (gx f a) (gx f b) t.
Proof. intros H. unfold gx, along, lerp. cbn [fst]. field. exact H. Qed.
Lemma gy_along f a b t : fr_res f <> 0 -> gy f (along a b t) = lerp (gy f a) (gy f b) t.
Proof. intros H. unfold gy, along, lerp. cbn [snd]. field. exact H. Qed.

Lemma lerp_near a b a' b' t : 0 <= t <= 1 -> Rabs (a - a') < 1 -> Rabs (b - b') < 1 -> Rabs (lerp a b t - lerp a' b' t) < 1.
Proof.
  intros Ht Ha Hb. apply Rabs_def2 in Ha, Hb. set (u := a - a') in *. set (v := b - b') in *.
  replace (lerp a b t - lerp a' b' t) with (lerp u v t) by (unfold lerp, u, v; ring). pose proof (lerp_between u v t Ht) as L.
  unfold Rmin, Rmax in L. destruct (Rle_dec u v); apply Rabs_def1; lra.
Qed.

Lemma grid_near f q c d : 0 < fr_res f ->
  (within (d * fr_res f) q (cell_to_world f c) <-> Rabs (gx f q - IZR (row c)) < d /\ Rabs (gy f q - IZR (col c)) < d).
Proof.
  intros Hr. unfold within, cell_to_world, cell_to_grid, padd. cbn [fst snd].
  assert (E : forall x o n, Rabs (x - (o + n * fr_res f)) = Rabs ((x - o) / fr_res f - n) * fr_res f).
  { intros x o n. rewrite <- (Rabs_pos_eq (fr_res f)) at 3 by lra. rewrite <- Rabs_mult. f_equal. field. lra. }
  unfold gx, gy. rewrite !E. split; intros [A B]; split; try (apply Rmult_lt_reg_r with (fr_res f); lra); apply Rmult_lt_compat_r; lra.
Qed.

Lemma off_border_grid f q : 0 < fr_res f -> off_border f q -> 1 <= gx f q <= IZR (fr_rows f) - 2 /\ 1 <= gy f q <= IZR (fr_cols f) - 2.
Proof.
  intros Hr [[A1 A2] [B1 B2]]. unfold gx, gy.
  assert (E : forall x l u, l * fr_res f <= x <= u * fr_res f -> l <= x / fr_res f <= u).
  { intros x l u H. assert (x = x / fr_res f * fr_res f) by (field; lra). split; apply Rmult_le_reg_r with (fr_res f); lra. }
  split; apply E; lra.
Qed.

Lemma near_inside x (c n : Z) : 1 <= x <= IZR n - 2 -> Rabs (x - IZR c) < 2 -> (0 <= c < n)%Z.
Proof.
  intros Hx Hc. apply Rabs_def2 in Hc. split.
  - assert (IZR (-1) < IZR c) by lra. apply lt_IZR in H. lia.
  - apply lt_IZR. lra.
Qed.

(** * The cells of an edge. *)
Lemma edge_covered f a b ca cb t : 0 < fr_res f -> world_to_cell f a false = Ok ca -> world_to_cell f b false = Ok cb -> 0 <= t <= 1 ->
  off_border f (along a b t) -> exists c, In c (rasterize_line (fr_rows f) (fr_cols f) ca cb) /\ within (2 * fr_res f) (along a b t) (cell_to_world f c).
Proof.
  intros Hr Ea Eb Ht Ho. destruct (to_cell_near f a ca Ea) as [Xa Ya]. destruct (to_cell_near f b cb Eb) as [Xb Yb].
  destruct (line_covers ca cb _ t (line_cells_ok ca cb) Ht) as (c & Ic & R & C).
  assert (N1 : Rabs (gx f (along a b t) - IZR (row c)) < 2).
  { rewrite gx_along by lra. pose proof (lerp_near _ _ _ _ t Ht Xa Xb). rewrite Rabs_minus_sym in R.
    replace (lerp (gx f a) (gx f b) t - IZR (row c)) with ((lerp (gx f a) (gx f b) t - lerp (IZR (row ca)) (IZR (row cb)) t) + (lerp (IZR (row ca)) (IZR (row cb)) t - IZR (row c))) by ring.
    eapply Rle_lt_trans; [apply Rabs_triang|]. lra. }
  assert (N2 : Rabs (gy f (along a b t) - IZR (col c)) < 2).
  { rewrite gy_along by lra. pose proof (lerp_near _ _ _ _ t Ht Ya Yb). rewrite Rabs_minus_sym in C.
    replace (lerp (gy f a) (gy f b) t - IZR (col c)) with ((lerp (gy f a) (gy f b) t - lerp (IZR (col ca)) (IZR (col cb)) t) + (lerp (IZR (col ca)) (IZR (col cb)) t - IZR (col c))) by ring.
    eapply Rle_lt_trans; [apply Rabs_triang|]. lra. }
  exists c. split; [|apply grid_near; auto]. unfold rasterize_line. apply filter_In. split; [exact Ic|]. apply in_range_inside.
  destruct (off_border_grid f _ Hr Ho) as [B1 B2]. split; [exact (near_inside _ _ _ B1 N1)|exact (near_inside _ _ _ B2 N2)].
Qed.

Lemma edge_followed f a b ca cb c : 0 < fr_res f -> world_to_cell f a false = Ok ca -> world_to_cell f b false = Ok cb ->
  In c (rasterize_line (fr_rows f) (fr_cols f) ca cb) -> exists t, 0 <= t <= 1 /\ within (3 / 2 * fr_res f) (along a b t) (cell_to_world f c).
Proof.
  intros Hr Ea Eb Ic. apply filter_In in Ic. destruct Ic as [Ic _].
  destruct (to_cell_near f a ca Ea) as [Xa Ya]. destruct (to_cell_near f b cb Eb) as [Xb Yb].
  destruct (line_close ca cb _ c (line_cells_ok ca cb) Ic) as (t & Ht & R & C). exists t. split; [exact Ht|]. apply grid_near; [exact Hr|]. split.
  - rewrite gx_along by lra. pose proof (lerp_near _ _ _ _ t Ht Xa Xb). rewrite Rabs_minus_sym in R.
    replace (lerp (gx f a) (gx f b) t - IZR (row c)) with ((lerp (gx f a) (gx f b) t - lerp (IZR (row ca)) (IZR (row cb)) t) + (lerp (IZR (row ca)) (IZR (row cb)) t - IZR (row c))) by ring.
    eapply Rle_lt_trans; [apply Rabs_triang|]. lra.
  - rewrite gy_along by lra. pose proof (lerp_near _ _ _ _ t Ht Ya Yb). rewrite Rabs_minus_sym in C.
    replace (lerp (gy f a) (gy f b) t - IZR (col c)) with ((lerp (gy f a) (gy f b) t - lerp (IZR (col ca)) (IZR (col cb)) t) + (lerp (IZR (col ca)) (IZR (col cb)) t - IZR (col c))) by ring.
    eapply Rle_lt_trans; [apply Rabs_triang|]. lra.
Qed.

(** * Shapes. *)
Lemma map_res_nth {A B} (g : A -> res B) l : forall bs, map_res g l = Ok bs -> length bs = length l /\
  forall i, (forall a, nth_error l i = Some a -> exists b, g a = Ok b /\ nth_error bs i = Some b) /\
            (forall b, nth_error bs i = Some b -> exists a, g a = Ok b /\ nth_error l i = Some a).
Proof.
  induction l as [|x l IH]; intros bs E; cbn [map_res] in E.
  - injection E as <-. split; [reflexivity|]. intros [|i]; split; intros ? H; discriminate H.
  - destruct (g x) as [y| | |] eqn:Ey; try discriminate. cbn [bind] in E. destruct (map_res g l) as [ys| | |]; try discriminate. cbn [bind] in E. injection E as <-.
    destruct (IH ys eq_refl) as [L N]. split; [cbn; lia|]. intros [|i]; cbn [nth_error].
    + split; intros ? H; injection H as <-; eauto.
    + apply N.
Qed.

Section ShapeInd.
  Variable P : shape -> Prop.
  Hypothesis Hp : forall vs, P (Polygon vs).
  Hypothesis Hc : forall cs, Forall P cs -> P (Composite cs).
  Fixpoint shape_rect' (s : shape) : P s :=
    match s with
    | Polygon vs => Hp vs
    | Composite cs => Hc cs ((fix go (l : list shape) : Forall P l := match l with [] => Forall_nil P | c :: r => Forall_cons c (shape_rect' c) (go r) end) cs)
    end.
End ShapeInd.

Lemma polygon_followed f p vs cs l : 0 < fr_res f -> map_res (fun v => world_to_cell f v false) (map (place p) vs) = Ok cs ->
  polygon_cells (fr_rows f) (fr_cols f) cs = Ok l ->
  (forall q, on_outline (map (place p) vs) q -> off_border f q -> exists c, In c l /\ within (2 * fr_res f) q (cell_to_world f c)) /\
  (forall c, In c l -> exists q, on_outline (map (place p) vs) q /\ within (3 / 2 * fr_res f) q (cell_to_world f c)).
Proof.
  intros Hr Em Ep. destruct (map_res_nth _ _ _ Em) as [L N]. destruct (polygon_spec (fr_rows f) (fr_cols f) cs) as (l' & El & S).
  assert (l' = l) as -> by congruence. split.
  - intros q (a & b & t & (j & Lj & Na & Nb) & Ht & ->) Ho.
    destruct (N j) as [N1 _]. destruct (N1 a Na) as (ca & Ea & Ja). destruct (N (Nat.modulo (j + 1) (length (map (place p) vs)))) as [N2 _].
    destruct (N2 b Nb) as (cb & Eb & Jb). destruct (edge_covered f a b ca cb t Hr Ea Eb Ht Ho) as (c & Ic & W). exists c. split; [|exact W].
    apply S. exists j, ca, cb. rewrite L. auto.
  - intros c Ic. apply S in Ic. destruct Ic as (j & ca & cb & Lj & Ja & Jb & Ic). rewrite L in *.
    destruct (N j) as [_ N1]. destruct (N1 ca Ja) as (a & Ea & Na). destruct (N (Nat.modulo (j + 1) (length (map (place p) vs)))) as [_ N2].
    destruct (N2 cb Jb) as (b & Eb & Nb). destruct (edge_followed f a b ca cb c Hr Ea Eb Ic) as (t & Ht & W). exists (along a b t).
    split; [|exact W]. exists a, b, t. split; [exists j; auto|auto].
Qed.

Lemma shape_followed f p s : 0 < fr_res f -> forall l, shape_cells f p s = Ok l ->
  (forall q, on_shape p s q -> off_border f q -> exists c, In c l /\ within (2 * fr_res f) q (cell_to_world f c)) /\
  (forall c, In c l -> exists q, on_shape p s q /\ within (3 / 2 * fr_res f) q (cell_to_world f c)).
Proof.
  intros Hr. induction s as [vs|cs IH] using shape_rect'; intros l E.
  - cbn [shape_cells] in E. destruct (map_res (fun v => world_to_cell f v false) (map (place p) vs)) as [cs| | |] eqn:Em; try discriminate. cbn [bind] in E.
    destruct (polygon_followed f p vs cs l Hr Em E) as [A B]. cbn [on_shape]. split.
    + intros q Hq. apply A. now apply place_outline.
    + intros c Ic. destruct (B c Ic) as (q & Hq & W). exists q. split; [now apply place_outline|exact W].
  - cbn [shape_cells on_shape] in *. revert l E. induction IH as [|c r Hc _ IHr]; intros l E.
    + injection E as <-. split; [intros q []|intros c []].
    + destruct (shape_cells f p c) as [a| | |]; try discriminate. cbn [bind] in E.
      match type of E with bind ?x _ = _ => destruct x as [b| | |] eqn:Eb end; try discriminate. cbn [bind] in E. injection E as <-.
      destruct (Hc a eq_refl) as [A1 A2]. destruct (IHr b eq_refl) as [B1 B2]. split.
      * intros q [Hq|Hq] Ho; [destruct (A1 q Hq Ho) as (k & Ik & W)|destruct (B1 q Hq Ho) as (k & Ik & W)]; exists k; rewrite in_app_iff; auto.
      * intros k Ik. apply in_app_iff in Ik. destruct Ik as [Ik|Ik]; [destruct (A2 k Ik) as (q & Hq & W)|destruct (B2 k Ik) as (q & Hq & W)]; exists q; auto.
Qed.

Lemma shape_inside f p s : forall l, shape_cells f p s = Ok l -> Forall (inside (fr_rows f) (fr_cols f)) l.
Proof.
  induction s as [vs|cs IH] using shape_rect'; intros l E; cbn [shape_cells] in E.
  - destruct (map_res _ _) as [cs| | |]; try discriminate. cbn [bind] in E. apply Forall_forall. intros c. eapply polygon_inside; eauto.
  - revert l E. induction IH as [|c r Hc _ IHr]; intros l E; [injection E as <-; constructor|].
    destruct (shape_cells f p c) as [a| | |]; try discriminate. cbn [bind] in E.
    match type of E with bind ?x _ = _ => destruct x as [b| | |] eqn:Eb end; try discriminate. cbn [bind] in E. injection E as <-.
    apply Forall_app. auto.
Qed.

(** The cells are defined if the vertices lie within 2^31 cells of the origin of the grid. *)
Definition convertible (f : frames) (v : point) : Prop := exists c, world_to_cell f v false = Ok c.
Lemma shape_defined f p s : Forall (convertible f) (vertices_position p s) -> exists l, shape_cells f p s = Ok l.
Proof.
  induction s as [vs|cs IH] using shape_rect'; cbn [vertices_position shape_cells]; intros H.
  - assert (E : exists cs, map_res (fun v => world_to_cell f v false) (map (place p) vs) = Ok cs).
    { induction (map (place p) vs) as [|v l IHl]; [cbn; eauto|]. inversion H as [|v' l' (c & Ec) H']; subst. destruct (IHl H') as (cs & Ecs).
      cbn [map_res]. rewrite Ec. cbn [bind]. rewrite Ecs. cbn [bind]. eauto. }
    destruct E as (cs & ->). cbn [bind]. destruct (polygon_spec (fr_rows f) (fr_cols f) cs) as (l & E & _). eauto.
  - induction IH as [|c r Hc _ IHr]; [eauto|]. cbn [flat_map] in H. apply Forall_app in H. destruct H as [H1 H2].
    destruct (Hc H1) as (a & ->). cbn [bind]. destruct (IHr H2) as (b & ->). cbn [bind]. eauto.
Qed.
