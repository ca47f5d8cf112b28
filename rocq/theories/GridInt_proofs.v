From Verif Require Import Base Grid_model Grid_spec Grid_proofs Raster_model Raster_spec Raster_proofs Gvd_model GridInt_model.
From Coq Require Import ZifyBool ZifyNat.
Open Scope Z_scope.

Lemma int_ok z : min32 <= z <= max32 -> int_of z = Ok z.
Proof. intros H. unfold int_of, fits. replace ((min32 <=? z) && (z <=? max32)) with true by lia. reflexivity. Qed.
Lemma int_ub z : z < min32 \/ max32 < z -> int_of z = UB.
Proof. intros H. unfold int_of, fits. replace ((min32 <=? z) && (z <=? max32)) with false by lia. reflexivity. Qed.

Lemma new_ok T m n (v : T) : m * n <= max32 -> igrid_new m n v = grid_new m n v.
Proof.
  intros H. unfold igrid_new, grid_new. destruct (Z.ltb_spec 0 m), (Z.ltb_spec 0 n); cbn [andb]; auto.
  unfold imul. rewrite int_ok; [reflexivity|]. unfold min32. nia.
Qed.
Lemma new_ub T m n (v : T) : 0 < m -> 0 < n -> max32 < m * n -> igrid_new m n v = UB.
Proof.
  intros Hm Hn H. unfold igrid_new. replace ((0 <? m) && (0 <? n)) with true by lia. unfold imul. rewrite int_ub; auto.
Qed.

Lemma offset_ok m n p : inside m n p -> m * n <= max32 -> imul (row p) n = Ok (row p * n).
Proof. intros [H1 H2] H. unfold imul. apply int_ok. unfold min32. nia. Qed.

Lemma get_ok T (g : grid T) p : inside (rows g) (columns g) p -> rows g * columns g <= max32 -> igrid_get g p = grid_get g p.
Proof. intros H1 H2. unfold igrid_get. rewrite (offset_ok (rows g)); auto. Qed.
Lemma set_ok T (g : grid T) p v : inside (rows g) (columns g) p -> rows g * columns g <= max32 -> igrid_set g p v = grid_set g p v.
Proof. intros H1 H2. unfold igrid_set. rewrite (offset_ok (rows g)); auto. Qed.

Lemma neighbors_ok m n p : row p < max32 -> col p < max32 -> ineighbors m n p = Ok (get_neighbors m n p).
Proof.
  intros H1 H2. unfold ineighbors, get_neighbors. destruct (cell_is_valid p) eqn:E; [|reflexivity].
  unfold cell_is_valid in E. unfold isub, iadd. rewrite !int_ok by (unfold min32, max32 in *; lia). reflexivity.
Qed.

Lemma adjacent_ok a b : 0 <= row a <= max32 -> 0 <= col a <= max32 -> 0 <= row b <= max32 -> 0 <= col b <= max32 ->
  iadjacent a b = Ok (is_adjacent_to a b).
Proof.
  intros. unfold iadjacent, is_adjacent_to. destruct (cell_eqb a b); [reflexivity|]. unfold isub.
  rewrite !int_ok by (unfold min32, max32 in *; lia). reflexivity.
Qed.

Lemma squared_ok a b : 0 <= row a <= max32 -> 0 <= col a <= max32 -> 0 <= row b <= max32 -> 0 <= col b <= max32 ->
  isquared_distance a b = squared_distance a b.
Proof.
  intros. unfold isquared_distance, squared_distance, isub, imul, iadd. change inf with max32.
  set (x := row a - row b). set (y := col a - col b).
  assert (min32 <= x <= max32 /\ min32 <= y <= max32) as [Hx Hy] by (unfold min32, max32 in *; subst x y; lia).
  rewrite (int_ok x), (int_ok y) by auto. cbn [bind].
  assert (0 <= x * x) by nia. assert (0 <= y * y) by nia.
  destruct (Z.le_gt_cases (x * x) max32).
  - rewrite (int_ok (x * x)) by (unfold min32; lia). cbn [bind]. destruct (Z.le_gt_cases (y * y) max32).
    + rewrite (int_ok (y * y)) by (unfold min32; lia). cbn [bind]. destruct (Z.ltb_spec max32 (x * x + y * y)).
      * apply int_ub. lia.
      * apply int_ok. unfold min32. lia.
    + rewrite (int_ub (y * y)) by lia. cbn [bind]. destruct (Z.ltb_spec max32 (x * x + y * y)); [reflexivity|lia].
  - rewrite (int_ub (x * x)) by lia. cbn [bind]. destruct (Z.ltb_spec max32 (x * x + y * y)); [reflexivity|lia].
Qed.

Lemma squared_defined m n a b : inside m n a -> inside m n b -> (m - 1) * (m - 1) + (n - 1) * (n - 1) <= max32 ->
  squared_distance a b = Ok ((row a - row b) * (row a - row b) + (col a - col b) * (col a - col b)).
Proof.
  intros [H1 H2] [H3 H4] H. unfold squared_distance. change inf with max32.
  assert ((row a - row b) * (row a - row b) <= (m - 1) * (m - 1)) by nia.
  assert ((col a - col b) * (col a - col b) <= (n - 1) * (n - 1)) by nia.
  destruct (Z.ltb_spec max32 ((row a - row b) * (row a - row b) + (col a - col b) * (col a - col b))); [lia|reflexivity].
Qed.
Lemma squared_corners m n : 0 < m -> 0 < n -> max32 < (m - 1) * (m - 1) + (n - 1) * (n - 1) ->
  squared_distance (Cell 0 0) (Cell (m - 1) (n - 1)) = UB.
Proof.
  intros Hm Hn H. unfold squared_distance. cbn [row col]. change inf with max32.
  destruct (Z.ltb_spec max32 ((0 - (m - 1)) * (0 - (m - 1)) + (0 - (n - 1)) * (0 - (n - 1)))); [reflexivity|nia].
Qed.

Lemma apart_ok a b : 0 <= row a <= max32 -> 0 <= col a <= max32 -> 0 <= row b <= max32 -> 0 <= col b <= max32 ->
  iapart a b = Ok ((1 <? Z.abs (row a - row b)) || (1 <? Z.abs (col a - col b))).
Proof.
  intros. unfold iapart, isub, iabs. rewrite !int_ok by (unfold min32, max32 in *; lia). cbn [bind].
  rewrite int_ok by (unfold min32, max32 in *; lia). cbn [bind]. destruct (1 <? Z.abs (row a - row b)); [reflexivity|].
  cbn [bind orb]. rewrite int_ok by (unfold min32, max32 in *; lia). reflexivity.
Qed.
Lemma stability_ok d e : 0 <= d <= max32 -> 0 <= e <= max32 -> istability d e = Ok (d - e).
Proof. intros. unfold istability, isub. apply int_ok. unfold min32, max32 in *. lia. Qed.

(** ** Lines *)
Section Loop.
  Context (steep : bool) (dx dy ystep x0 y0 : Z).
  Context (Hd : 0 <= dy <= dx) (Hstep : ystep = 1 \/ ystep = -1) (Hdx : dx <= max32).
  Context (Hx : min32 < x0 /\ x0 + dx < max32) (Hy0 : min32 < y0 < max32) (Hy1 : min32 < y0 + ystep * dy < max32).

  Lemma good_minor i k err : good dx dy i k err -> i <= dx + 1 -> 0 <= i -> k <= dy + 1.
  Proof.
    intros G Hi Hi0. pose proof (good_near _ _ Hd _ _ _ G) as N. destruct G as (_ & H0 & [H1|[-> ->]] & Hk); [|lia].
    assert (0 < dx) by lia. assert (k * dx <= i * dy + dx) by lia. assert (i * dy <= (dx + 1) * dy) by nia.
    nia.
  Qed.

  Lemma ibres_ok n : forall i k err, good dx dy i k err -> 0 <= i -> i + Z.of_nat n <= dx + 1 ->
    ibresenham n steep dx dy ystep (x0 + i) (y0 + ystep * k) err = Ok (bresenham n steep dx dy ystep (x0 + i) (y0 + ystep * k) err).
  Proof.
    induction n as [|n IH]; intros i k err G Hi Hn; [reflexivity|]. cbn [ibresenham bresenham].
    pose proof (good_step _ _ Hd _ _ _ G) as G'.
    pose proof (good_minor _ _ _ G' ltac:(lia) ltac:(lia)) as Hk'.
    destruct G as (He & E0 & E1 & Hk).
    assert (Bk : 0 <= (if err - dy <? 0 then k + 1 else k)) by (destruct (err - dy <? 0); lia).
    assert (B : err <= dx) by lia.
    unfold isub at 1. rewrite int_ok by (unfold min32, max32 in *; lia). cbn [bind].
    destruct (Z.ltb_spec (err - dy) 0) as [L|L].
    - unfold iadd. rewrite (int_ok (y0 + ystep * k + ystep)).
      2:{ destruct Hstep as [-> | ->]; unfold min32, max32 in *; lia. }
      cbn [bind]. rewrite (int_ok (err - dy + dx)) by (unfold min32, max32 in *; lia). cbn [bind].
      rewrite (int_ok (x0 + i + 1)) by (unfold min32, max32 in *; lia). cbn [bind].
      replace (x0 + i + 1) with (x0 + (i + 1)) by lia. replace (y0 + ystep * k + ystep) with (y0 + ystep * (k + 1)) by lia.
      rewrite IH by (auto; lia). reflexivity.
    - cbn [bind]. unfold iadd. rewrite (int_ok (x0 + i + 1)) by (unfold min32, max32 in *; lia). cbn [bind].
      replace (x0 + i + 1) with (x0 + (i + 1)) by lia. rewrite IH by (auto; lia). reflexivity.
  Qed.
End Loop.

(** The coordinates are no extreme integers. *)
Definition tame (c : cell) : Prop := min32 < row c < max32 /\ min32 < col c < max32.

Lemma line_ok p q : tame p -> tame q -> Z.abs (row p - row q) <= max32 -> Z.abs (col p - col q) <= max32 ->
  iline_cells p q = Ok (line_cells p q).
Proof.
  intros [P1 P2] [Q1 Q2] D1 D2. unfold iline_cells, line_cells, isub, iabs.
  rewrite (int_ok (col q - col p)) by (unfold min32, max32 in *; lia). cbn [bind].
  rewrite (int_ok (Z.abs (col q - col p))) by (unfold min32, max32 in *; lia). cbn [bind].
  rewrite (int_ok (row q - row p)) by (unfold min32, max32 in *; lia). cbn [bind].
  rewrite (int_ok (Z.abs (row q - row p))) by (unfold min32, max32 in *; lia). cbn [bind].
  assert (K : forall steep x0 y0 x1 y1, min32 < x0 < max32 -> min32 < y0 < max32 -> min32 < x1 < max32 -> min32 < y1 < max32 ->
    Z.abs (y1 - y0) <= Z.abs (x1 - x0) -> Z.abs (x1 - x0) <= max32 ->
    (let '(x0, y0, x1, y1) := if x0 >? x1 then (x1, y1, x0, y0) else (x0, y0, x1, y1) in
     do dx <- int_of (x1 - x0);
     do d <- int_of (y1 - y0);
     do dy <- int_of (Z.abs d);
     let err := Z.quot dx 2 in
     let ystep := if y0 <? y1 then 1 else -1 in
     ibresenham (Z.to_nat (x1 - x0 + 1)) steep dx dy ystep x0 y0 err) =
    Ok (let '(x0, y0, x1, y1) := if x0 >? x1 then (x1, y1, x0, y0) else (x0, y0, x1, y1) in
     let dx := x1 - x0 in
     let dy := Z.abs (y1 - y0) in
     let err := Z.quot dx 2 in
     let ystep := if y0 <? y1 then 1 else -1 in
     bresenham (Z.to_nat (x1 - x0 + 1)) steep dx dy ystep x0 y0 err)).
  { intros steep x0 y0 x1 y1 X0 Y0 X1 Y1 D E.
    assert (K : forall x0 y0 x1 y1, min32 < x0 < max32 -> min32 < y0 < max32 -> min32 < x1 < max32 -> min32 < y1 < max32 -> x0 <= x1 ->
      Z.abs (y1 - y0) <= x1 - x0 -> x1 - x0 <= max32 ->
      (do dx <- int_of (x1 - x0); do d <- int_of (y1 - y0); do dy <- int_of (Z.abs d);
       let err := Z.quot dx 2 in let ystep := if y0 <? y1 then 1 else -1 in
       ibresenham (Z.to_nat (x1 - x0 + 1)) steep dx dy ystep x0 y0 err) =
      Ok (bresenham (Z.to_nat (x1 - x0 + 1)) steep (x1 - x0) (Z.abs (y1 - y0)) (if y0 <? y1 then 1 else -1) x0 y0 (Z.quot (x1 - x0) 2))).
    { clear. intros x0 y0 x1 y1 X0 Y0 X1 Y1 L D E.
      rewrite (int_ok (x1 - x0)) by (unfold min32, max32 in *; lia). cbn [bind].
      rewrite (int_ok (y1 - y0)) by (unfold min32, max32 in *; lia). cbn [bind].
      rewrite (int_ok (Z.abs (y1 - y0))) by (unfold min32, max32 in *; lia). cbn [bind]. cbv zeta.
      set (ys := if y0 <? y1 then 1 else -1).
      assert (Hs : ys = 1 \/ ys = -1) by (subst ys; destruct (y0 <? y1); auto).
      assert (Hyy : y0 + ys * Z.abs (y1 - y0) = y1) by (subst ys; destruct (Z.ltb_spec y0 y1); lia).
      assert (Hd : 0 <= Z.abs (y1 - y0) <= x1 - x0) by lia.
      pose proof (ibres_ok steep (x1 - x0) (Z.abs (y1 - y0)) ys x0 y0 Hd Hs E ltac:(lia) Y0 ltac:(lia) (Z.to_nat (x1 - x0 + 1)) 0 0 (Z.quot (x1 - x0) 2)
        (good_init _ _ Hd) ltac:(lia) ltac:(lia)) as G.
      rewrite Z.add_0_r, Z.mul_0_r, Z.add_0_r in G. exact G. }
    destruct (Z.gtb_spec x0 x1); [apply (K x1 y1 x0 y0)|apply (K x0 y0 x1 y1)]; auto; lia. }
  destruct (Z.gtb_spec (Z.abs (col q - col p)) (Z.abs (row q - row p))); apply K; auto; lia.
Qed.

Lemma line_ub p q : (max32 < Z.abs (row p - row q) \/ max32 < Z.abs (col p - col q)) -> iline_cells p q = UB.
Proof.
  intros H. unfold iline_cells, isub, iabs.
  destruct (Z.le_gt_cases (Z.abs (col q - col p)) max32) as [L|L].
  - rewrite (int_ok (col q - col p)) by (unfold min32, max32 in *; lia). cbn [bind].
    rewrite (int_ok (Z.abs (col q - col p))) by (unfold min32, max32 in *; lia). cbn [bind].
    destruct (Z.eq_dec (row q - row p) min32) as [->|N].
    + rewrite int_ok by (unfold min32, max32; lia). cbn [bind]. reflexivity.
    + rewrite int_ub by (unfold min32, max32 in *; lia). reflexivity.
  - destruct (Z.eq_dec (col q - col p) min32) as [->|N].
    + rewrite int_ok by (unfold min32, max32; lia). cbn [bind]. reflexivity.
    + rewrite int_ub by (unfold min32, max32 in *; lia). reflexivity.
Qed.

Lemma raster_ok m n p q : tame p -> tame q -> Z.abs (row p - row q) <= max32 -> Z.abs (col p - col q) <= max32 ->
  irasterize_line m n p q = Ok (rasterize_line m n p q).
Proof. intros. unfold irasterize_line. rewrite line_ok; auto. Qed.
Lemma raster_ub m n p q : (max32 < Z.abs (row p - row q) \/ max32 < Z.abs (col p - col q)) -> irasterize_line m n p q = UB.
Proof. intros. unfold irasterize_line. rewrite line_ub; auto. Qed.
