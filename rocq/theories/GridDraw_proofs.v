(** The outlines drawn for the obstacles, and the searches on the map. *)
From Coq Require Import Reals Lra.
From Verif Require Import Base RealBase Frontier_model Frontier_spec AStar_model AStar_spec Grid_model Grid_spec Raster_model Raster_spec Raster_proofs
  AStarN2_model AStarN2_spec AStarN2_proofs GridSide_spec GridSide_proofs.
From Verif Require Import Bidir_model Bidir_spec Bidir_proofs.
Open Scope Z_scope.

(** * The lines of a polygon *)
Fixpoint lines (v : cell) (vs : list cell) : list (list cell) :=
  match vs with [] => [] | w :: r => line_cells v w :: lines w r end.

Lemma line_chain p q l : discrete_line p q l -> chain p q l.
Proof. intros H. split; apply H. Qed.

Lemma joined_weaken (rel rel' : cell -> cell -> list cell -> Prop) : (forall p q l, rel p q l -> rel' p q l) ->
  forall vs v ls, joined rel v vs ls -> joined rel' v vs ls.
Proof. intros H. induction vs as [|w vs IH]; intros v [|l ls]; cbn [joined]; auto. intros []; auto. Qed.
Lemma draws_outline vs ls : draws_polygon vs ls -> outline vs ls.
Proof. unfold draws_polygon, outline, loop. destruct vs; auto. apply joined_weaken, line_chain. Qed.

Lemma lines_joined vs : forall v, joined discrete_line v vs (lines v vs).
Proof. induction vs as [|w vs IH]; intros v; cbn; auto. split; [apply line_cells_ok|apply IH]. Qed.

Lemma lines_In vs : forall v l, In l (lines v vs) <-> exists a b, next (v :: vs) a b /\ l = line_cells a b.
Proof.
  induction vs as [|w vs IH]; intros v l; cbn [lines In].
  - split; [easy|]. intros (a & b & ([|x [|y l1]] & l2 & E) & _); discriminate.
  - rewrite IH. split.
    + intros [<-|(a & b & H & ->)]; [exists v, w; split; auto; exists [], vs; reflexivity|exists a, b; split; auto; exact (next_tail _ _ _ _ H)].
    + intros (a & b & ([|x l1] & l2 & E) & ->); cbn [app] in E.
      * injection E as <- <- _. now left.
      * injection E as <- E. right. exists a, b. split; auto. now exists l1, l2.
Qed.

Definition polygon_lines (vs : list cell) : list (list cell) := match vs with [] => [] | v :: r => lines v (r ++ [v]) end.

Lemma polygon_lines_draw vs : draws_polygon vs (polygon_lines vs).
Proof. unfold draws_polygon, loop, polygon_lines. destruct vs as [|v r]; auto. apply lines_joined. Qed.

Lemma next_nth (l : list cell) a b : next l a b <-> exists j, nth_error l j = Some a /\ nth_error l (S j) = Some b.
Proof.
  split.
  - intros (l1 & l2 & ->). exists (length l1). rewrite !nth_error_app2 by lia. rewrite Nat.sub_diag.
    replace (S (length l1) - length l1)%nat with 1%nat by lia. auto.
  - intros (j & H1 & H2). exists (firstn j l), (skipn (S (S j)) l).
    rewrite <- (firstn_skipn j l) at 1. f_equal. revert l H1 H2. induction j as [|j IH]; intros [|x l] H1 H2; try discriminate.
    + destruct l as [|y l]; [discriminate|]. cbn in *. congruence.
    + cbn [skipn]. apply (IH l); auto.
Qed.

Lemma polygon_cells_lines m n vs cells : polygon_cells m n vs = Ok cells ->
  forall c, In c cells <-> inside m n c /\ exists l, In l (polygon_lines vs) /\ In c l.
Proof.
  intros E c. destruct (polygon_spec m n vs) as (cells' & E' & H). rewrite E in E'. injection E' as <-. rewrite H. clear H E.
  assert (F : forall a b, In c (rasterize_line m n a b) <-> inside m n c /\ In c (line_cells a b)).
  { intros a b. unfold rasterize_line. rewrite filter_In, in_range_inside. tauto. }
  destruct vs as [|v r].
  { cbn. split; [intros (j & _ & _ & Hj & _); lia|intros (_ & l & [] & _)]. }
  assert (L : length (v :: r) = S (length r)) by reflexivity. cbn [polygon_lines]. split.
  - intros (j & a & b & Hj & Ha & Hb & Hc). apply F in Hc as [Hi Hc]. split; auto. exists (line_cells a b). split; auto.
    apply lines_In. exists a, b. split; auto. apply next_nth. exists j. change (v :: r ++ [v]) with ((v :: r) ++ [v]).
    rewrite nth_error_app1 by auto. split; auto. rewrite L in *. destruct (Nat.eq_dec j (length r)) as [->|N].
    + replace ((length r + 1) mod S (length r))%nat with 0%nat in Hb by (replace (length r + 1)%nat with (S (length r)) by lia; now rewrite Nat.mod_same by lia).
      rewrite nth_error_app2 by lia. rewrite L, Nat.sub_diag. exact Hb.
    + rewrite nth_error_app1 by lia. rewrite Nat.mod_small in Hb by lia. now replace (S j) with (j + 1)%nat by lia.
  - intros (Hi & l & Hl & Hc). apply lines_In in Hl as (a & b & Hn & ->). apply next_nth in Hn as (j & Ha & Hb).
    change (v :: r ++ [v]) with ((v :: r) ++ [v]) in Ha, Hb.
    assert (Hj : (S j < length ((v :: r) ++ [v]))%nat) by (apply nth_error_Some; congruence). rewrite app_length, L in Hj. cbn [length] in Hj.
    exists j, a, b. split; [rewrite L; lia|]. rewrite nth_error_app1 in Ha by (rewrite L; lia). split; auto. split; [|apply F; auto]. rewrite L.
    destruct (Nat.eq_dec j (length r)) as [->|N].
    + replace ((length r + 1) mod S (length r))%nat with 0%nat by (replace (length r + 1)%nat with (S (length r)) by lia; now rewrite Nat.mod_same by lia).
      rewrite nth_error_app2 in Hb by (rewrite L; lia). rewrite L, Nat.sub_diag in Hb. exact Hb.
    + rewrite nth_error_app1 in Hb by (rewrite L; lia). rewrite Nat.mod_small by lia. now replace (j + 1)%nat with (S j) by lia.
Qed.

Lemma drawn_polygon m n vs cells : polygon_cells m n vs = Ok cells ->
  exists ls, draws_polygon vs ls /\ forall c, In c cells <-> inside m n c /\ exists l, In l ls /\ In c l.
Proof. intros E. exists (polygon_lines vs). split; [apply polygon_lines_draw|now apply polygon_cells_lines]. Qed.

(** * The even-odd rule on a rectangle *)
Definition rectangle (r0 c0 r1 c1 : Z) : list cell := [Cell r0 c0; Cell r0 c1; Cell r1 c1; Cell r1 c0].

Lemma row_line r a b l c : discrete_line (Cell r a) (Cell r b) l -> a <> b -> crossings c l = 0%nat.
Proof.
  intros H N. assert (F : Forall (fun x => row x = r) l).
  { apply Forall_forall. intros x Hx. pose proof (dl_near _ _ _ H x Hx) as Q. unfold near_line, major in Q. cbn [row col] in Q.
    rewrite Z.sub_diag, Z.mul_0_r, Z.sub_0_r, Z.abs_mul in Q. cbn [Z.abs] in Q. set (k := Z.abs (b - a)) in *. assert (0 < k) by lia. rewrite Z.max_r in Q by lia.
    assert (Z.abs (row x - r) < 1) by nia. lia. }
  clear H. induction l as [|x [|y l] IH]; auto. inversion F as [|? ? H1 H2]; subst. inversion H2; subst.
  change (crossings c (x :: y :: l)) with ((if crosses c x y then 1 else 0) + crossings c (y :: l))%nat. rewrite IH by auto.
  replace (crosses c x y) with false; auto. unfold crosses. symmetry. rewrite Bool.orb_false_iff. lia.
Qed.

Lemma column_crossings c k l : forall x, Forall (fun y => col y = k) (x :: l) -> consecutive (fun a b => row b = row a + 1) (x :: l) ->
  crossings c (x :: l) = if (row x <=? row c) && (row c <? row x + Z.of_nat (length l)) && (col c <? k) then 1%nat else 0%nat.
Proof.
  induction l as [|y l IH]; intros x F H.
  - cbn [crossings length]. replace ((row x <=? row c) && (row c <? row x + Z.of_nat 0)) with false by lia. reflexivity.
  - change (crossings c (x :: y :: l)) with ((if crosses c x y then 1 else 0) + crossings c (y :: l))%nat. inversion F as [|? ? F1 F2]; subst. inversion F2 as [|? ? F3 F4]; subst.
    destruct H as [H1 H2]. rewrite IH by auto. unfold crosses. rewrite H1, F3. cbn [length].
    destruct (Z.ltb_spec (col c) (col x)); rewrite ?Bool.andb_false_r, ?Bool.andb_true_r; auto.
    destruct (Z.eqb_spec (row x) (row c)) as [E|E].
    + rewrite E, Z.eqb_refl. replace ((row c + 1 <=? row c) && (row c <? row c + 1 + Z.of_nat (length l))) with false by lia.
      replace ((row c <=? row c) && (row c <? row c + Z.of_nat (S (length l)))) with true by lia. reflexivity.
    + replace (row x + 1 =? row c + 1) with false by lia. cbn [andb orb]. replace (row x =? row c + 1) with (row x =? row c + 1) by auto.
      replace ((row x + 1 =? row c) && (row x =? row c + 1)) with false by lia. cbn [andb orb].
      replace ((row x + 1 <=? row c) && (row c <? row x + 1 + Z.of_nat (length l))) with ((row x <=? row c) && (row c <? row x + Z.of_nat (S (length l)))) by lia. reflexivity.
Qed.

Lemma column_line k a b l c : discrete_line (Cell a k) (Cell b k) l -> a <> b ->
  crossings c l = if (Z.min a b <=? row c) && (row c <? Z.max a b) && (col c <? k) then 1%nat else 0%nat.
Proof.
  intros H N. assert (F : Forall (fun x => col x = k) l).
  { apply Forall_forall. intros x Hx. pose proof (dl_near _ _ _ H x Hx) as Q. unfold near_line, major in Q. cbn [row col] in Q.
    rewrite Z.sub_diag, Z.mul_0_r, Z.sub_0_l, Z.abs_opp, Z.abs_mul in Q. cbn [Z.abs] in Q. set (j := Z.abs (b - a)) in *. assert (0 < j) by lia. rewrite Z.max_l in Q by lia.
    assert (Z.abs (col x - k) < 1) by nia. lia. }
  pose proof (dl_monotone _ _ _ H) as M. unfold major_coord in M. cbn [row col] in M.
  replace (Z.abs (k - k) >? Z.abs (b - a)) with false in M by lia.
  pose proof (dl_length _ _ _ H) as Ln. unfold major in Ln. cbn [row col] in Ln.
  destruct l as [|x l]; [cbn in Ln; lia|]. rewrite (column_crossings c k l x F M). cbn [length] in Ln.
  assert (Hx : row x = Z.min a b).
  { assert (La : forall l x d, consecutive (fun p q => row q = row p + 1) (x :: l) -> row (last (x :: l) d) = row x + Z.of_nat (length l)).
    { clear. induction l as [|y l IH]; intros x d H; [cbn; lia|]. change (last (x :: y :: l) d) with (last (y :: l) d). rewrite IH by apply H. destruct H as [-> _]. cbn [length]. lia. }
    destruct (dl_ends _ _ _ H) as [[E1 E2]|[E1 E2]]; cbn [hd_error] in E1; injection E1 as ->; apply (f_equal row) in E2; rewrite La in E2 by exact M; cbn [row] in E2 |- *; lia. }
  rewrite Hx. replace (Z.min a b + Z.of_nat (length l)) with (Z.max a b) by lia. reflexivity.
Qed.

(** A line that increases one coordinate by one each time goes through all its values. *)
Lemma all_values (f : cell -> Z) l : forall x d, consecutive (fun a b => f b = f a + 1) (x :: l) ->
  f (last (x :: l) d) = f x + Z.of_nat (length l) /\ forall v, f x <= v <= f x + Z.of_nat (length l) -> exists c, In c (x :: l) /\ f c = v.
Proof.
  induction l as [|y l IH]; intros x d H.
  - cbn. split; [lia|]. intros v Hv. exists x. split; auto; lia.
  - destruct H as [H1 H2]. destruct (IH y d H2) as [I1 I2]. change (last (x :: y :: l) d) with (last (y :: l) d). cbn [length]. split; [lia|].
    intros v Hv. destruct (Z.eq_dec v (f x)) as [->|N]; [exists x; split; auto; now left|]. destruct (I2 v) as (c & Hc & Ec); [lia|]. exists c. split; auto. now right.
Qed.

Lemma line_values p q l v : discrete_line p q l -> p <> q ->
  Z.min (major_coord p q p) (major_coord p q q) <= v <= Z.max (major_coord p q p) (major_coord p q q) -> exists c, In c l /\ major_coord p q c = v.
Proof.
  intros H N Hv. pose proof (dl_monotone _ _ _ H) as M. pose proof (dl_ends _ _ _ H) as E. pose proof (dl_length _ _ _ H) as Ln.
  destruct l as [|x l]; [exfalso; cbn [length] in Ln; unfold major in Ln; lia|].
  destruct (all_values (major_coord p q) l x p M) as [A1 A2]. destruct (all_values (major_coord p q) l x q M) as [B1 _].
  apply A2. destruct E as [[E1 E2]|[E1 E2]]; cbn [hd_error] in E1; injection E1 as ->; [rewrite E2 in A1|rewrite E2 in B1]; lia.
Qed.

Lemma row_near r a b l x : discrete_line (Cell r a) (Cell r b) l -> a <> b -> In x l -> row x = r.
Proof.
  intros H N Hx. pose proof (dl_near _ _ _ H x Hx) as Q. unfold near_line, major in Q. cbn [row col] in Q.
  rewrite Z.sub_diag, Z.mul_0_r, Z.sub_0_r, Z.abs_mul in Q. cbn [Z.abs] in Q. set (k := Z.abs (b - a)) in *. assert (0 < k) by lia. rewrite Z.max_r in Q by lia.
  assert (Z.abs (row x - r) < 1) by nia. lia.
Qed.
Lemma column_near k a b l x : discrete_line (Cell a k) (Cell b k) l -> a <> b -> In x l -> col x = k.
Proof.
  intros H N Hx. pose proof (dl_near _ _ _ H x Hx) as Q. unfold near_line, major in Q. cbn [row col] in Q.
  rewrite Z.sub_diag, Z.mul_0_r, Z.sub_0_l, Z.abs_opp, Z.abs_mul in Q. cbn [Z.abs] in Q. set (j := Z.abs (b - a)) in *. assert (0 < j) by lia. rewrite Z.max_l in Q by lia.
  assert (Z.abs (col x - k) < 1) by nia. lia.
Qed.

Lemma row_has r a b l c : discrete_line (Cell r a) (Cell r b) l -> a <> b -> row c = r -> Z.min a b <= col c <= Z.max a b -> In c l.
Proof.
  intros H N E Hc. destruct (line_values _ _ _ (col c) H) as (x & Hx & Ex).
  - intros Q. injection Q. auto.
  - unfold major_coord. cbn [row col]. replace (Z.abs (b - a) >? Z.abs (r - r)) with true by lia. auto.
  - unfold major_coord in Ex. cbn [row col] in Ex. replace (Z.abs (b - a) >? Z.abs (r - r)) with true in Ex by lia.
    pose proof (row_near _ _ _ _ _ H N Hx) as R. destruct c as [cr cc], x as [xr xc]. cbn in *. subst. exact Hx.
Qed.
Lemma column_has k a b l c : discrete_line (Cell a k) (Cell b k) l -> a <> b -> col c = k -> Z.min a b <= row c <= Z.max a b -> In c l.
Proof.
  intros H N E Hc. destruct (line_values _ _ _ (row c) H) as (x & Hx & Ex).
  - intros Q. injection Q. auto.
  - unfold major_coord. cbn [row col]. replace (Z.abs (k - k) >? Z.abs (b - a)) with false by lia. auto.
  - unfold major_coord in Ex. cbn [row col] in Ex. replace (Z.abs (k - k) >? Z.abs (b - a)) with false in Ex by lia.
    pose proof (column_near _ _ _ _ _ H N Hx) as R. destruct c as [cr cc], x as [xr xc]. cbn in *. subst. exact Hx.
Qed.

Lemma rectangle_sides r0 c0 r1 c1 ls : r0 < r1 -> c0 < c1 -> draws_polygon (rectangle r0 c0 r1 c1) ls ->
  forall c, (forall l, In l ls -> ~ In c l) -> enclosed ls c = true <-> r0 < row c < r1 /\ c0 < col c < c1.
Proof.
  intros Hr Hc Ho c Hn. unfold draws_polygon in Ho. cbn [rectangle loop app] in Ho.
  destruct ls as [|l1 [|l2 [|l3 [|l4 [|l5 ls]]]]]; cbn [joined] in Ho; try tauto.
  destruct Ho as (C1 & C2 & C3 & C4 & _).
  unfold enclosed. cbn [map list_sum fold_right]. rewrite (row_line _ _ _ _ c C1), (row_line _ _ _ _ c C3), (column_line _ _ _ _ c C2), (column_line _ _ _ _ c C4) by lia.
  assert (N1 : row c = r0 -> c0 <= col c <= c1 -> False).
  { intros E Q. apply (Hn l1); [now left|]. apply (row_has _ _ _ _ c C1); auto; lia. }
  assert (N4 : col c = c0 -> r0 <= row c <= r1 -> False).
  { intros E Q. apply (Hn l4); [right; right; right; now left|]. apply (column_has _ _ _ _ c C4); auto; lia. }
  replace (Z.min r0 r1) with r0 by lia. replace (Z.max r0 r1) with r1 by lia. replace (Z.min r1 r0) with r0 by lia. replace (Z.max r1 r0) with r1 by lia.
  destruct (Z.leb_spec r0 (row c)), (Z.ltb_spec (row c) r1), (Z.ltb_spec (col c) c0), (Z.ltb_spec (col c) c1); cbn; split; try easy; lia.
Qed.

(** * Searches *)
Lemma cell_equiv : equivalence cell cell_eqb.
Proof.
  assert (D : forall s t, cell_eqb s t = true <-> s = t) by (intros; apply cell_decides).
  split; [intros c; now apply D|intros c d H; apply D in H; now apply D|intros c d e H1 H2; apply D in H1, H2; apply D; congruence].
Qed.
Section Search.
  Context {C : Type} (ltb : C -> C -> bool) (add : C -> C -> C) (zero : C).
  Hypothesis swo : strict_weak_order C ltb.
  Variables (m n : Z) (occ : cell -> bool) (vs : list cell) (ls : list (list cell)).
  Hypothesis Ho : outline vs ls.
  Hypothesis Hw : walled m n occ ls.

  Lemma n2_side cost h init goal fuel sol st : inside m n init -> occ init = false ->
    n2_search ltb add zero m n cost occ h init goal fuel = Ok (Some sol, st) ->
    exists path, get_path (Some sol) = Ok path /\ on_one_side ls path /\ In init path /\ In goal path.
  Proof using swo Ho Hw.
    intros Hi Fi E. destruct (n2_sound ltb add zero swo m n cost occ h init goal fuel sol st Hi E) as (l & Ep & W).
    exists (init :: l). split; auto. split; [apply (walk_side m n occ vs ls Ho Hw l init goal Hi Fi W)|]. split; [now left|].
    clear - W. revert init W. induction l as [|c l IH]; intros p H; cbn [walk] in H; [subst; now left|]. right. apply IH. apply H.
  Qed.

  Lemma n2_apart cost h init goal fuel : inside m n init -> occ init = false -> enclosed ls init <> enclosed ls goal ->
    (Z.to_nat m * Z.to_nat n < fuel)%nat -> exists st, n2_search ltb add zero m n cost occ h init goal fuel = Ok (None, st).
  Proof using swo Ho Hw.
    intros Hi Fi N Hf. destruct (n2_terminates ltb add zero swo m n cost occ h init goal Hi fuel Hf) as ([sol|] & st & E); [|eauto].
    exfalso. destruct (n2_side cost h init goal fuel sol st Hi Fi E) as (path & _ & [Hs _] & I1 & I2). apply N. now apply Hs.
  Qed.

  Lemma next_app (a b : list cell) x y : next (a ++ b) x y -> next a x y \/ next b x y \/ (exists d, x = last a d /\ a <> []) /\ hd_error b = Some y.
  Proof using Type.
    clear. induction a as [|z a IH]; intros H; [auto|]. destruct H as ([|w l1] & l2 & E); cbn [app] in E; injection E as -> E.
    - destruct a as [|z' a]; cbn [app] in E.
      + right. right. rewrite E. split; [|reflexivity]. exists x. split; [reflexivity|easy].
      + injection E as -> E. left. exists [], a. reflexivity.
    - destruct (IH ltac:(now exists l1, l2)) as [Q|[Q|[(d & Q & Na) R]]]; auto.
      + left. exact (next_tail _ _ _ _ Q).
      + right. right. split; auto. exists d. split; [|easy]. destruct a; [easy|]. exact Q.
  Qed.
  Lemma next_rev (l : list cell) x y : next (rev l) x y -> next l y x.
  Proof using Type.
    clear. intros (l1 & l2 & E). exists (rev l2), (rev l1). rewrite <- (rev_involutive l), E, rev_app_distr. cbn [rev]. rewrite <- !app_assoc. reflexivity.
  Qed.

  Lemma bi_side cost costr hf hr init goal fuel b : inside m n init -> inside m n goal -> occ init = false -> occ goal = false ->
    bi_search cell_eqb ltb add zero hf hr (n2_succ m n cost occ) (n2_succ m n costr occ) true fuel init goal tt tt = Ok (true, b) ->
    exists path, bi_path (b_sol b) = Ok path /\ on_one_side ls path /\ In init path /\ In goal path.
  Proof using swo Ho Hw.
    intros Hi Hg Fi Fg E.
    destruct (bi_sound cell_eqb ltb add zero tt hf hr (n2_succ m n cost occ) (n2_succ m n costr occ) true cell_equiv swo init goal fuel tt tt b E)
      as (lf & lr & s & s' & Pf & Pr & Es & Ep & _).
    apply cell_decides in Es. subst s'.
    destruct (path_walk m n cost occ lf init s Hi Pf) as [Wf _]. destruct (path_walk m n costr occ lr goal s Hg Pr) as [Wr _].
    eexists. split; [exact Ep|]. unfold path_states. set (f := map step_state lf) in *. set (r := map step_state lr) in *.
    destruct (walk_side m n occ vs ls Ho Hw f init s Hi Fi Wf) as [[Sf _] Ef]. destruct (walk_side m n occ vs ls Ho Hw r goal s Hg Fg Wr) as [[Sr _] Er].
    assert (Lf : forall l p d, walk m n occ p l s -> last (p :: l) d = s).
    { clear. induction l as [|c l IH]; intros p d H; cbn [walk] in H; [exact H|]. change (last (p :: c :: l) d) with (last (c :: l) d). apply IH. apply H. }
    assert (Al : forall c, In c ((init :: f) ++ rev (goal :: r)) -> enclosed ls c = enclosed ls s).
    { intros c Hc. apply in_app_or in Hc as [Hc|Hc].
      - rewrite Ef. apply Sf; auto. now left.
      - apply in_rev in Hc. rewrite Er. apply Sr; auto. now left. }
    split; [split|].
    - intros c d Hc Hd. now rewrite (Al c Hc), (Al d Hd).
    - apply (good_apart m n occ vs ls _ Ho Hw). split.
      + apply Forall_app. split; [apply (walk_free m n occ f init s (conj Hi Fi) Wf)|]. apply Forall_rev. apply (walk_free m n occ r goal s (conj Hg Fg) Wr).
      + intros x y Hxy. apply next_app in Hxy as [Q|[Q|[(d & Q & _) R]]].
        * right. left. exact (walk_next m n occ f init s x y Wf Q).
        * right. right. apply next_rev in Q. exact (walk_next m n occ r goal s y x Wr Q).
        * left. rewrite (Lf f init d Wf) in Q. subst x.
          assert (Q : rev (goal :: r) = s :: tl (rev (goal :: r))).
          { pose proof (Lf r goal goal Wr) as Q. rewrite <- (rev_involutive (goal :: r)) in Q. destruct (rev (goal :: r)) as [|z t] eqn:Ez; [apply (f_equal (@length cell)) in Ez; rewrite rev_length in Ez; discriminate|].
            cbn [rev] in Q. rewrite last_last in Q. subst z. reflexivity. }
          rewrite Q in R. cbn in R. congruence.
    - split; [now left|]. apply in_or_app. right. apply -> in_rev. now left.
  Qed.
End Search.
