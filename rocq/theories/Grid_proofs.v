From Verif Require Import Base Grid_model Grid_spec.
From Coq Require Import ZifyBool ZifyNat.
Open Scope Z_scope.

Lemma cell_eqb_eq a b : cell_eqb a b = true <-> a = b.
Proof.
  destruct a as [r c], b as [r' c']. unfold cell_eqb. cbn. split.
  - intros H. f_equal; lia.
  - intros H. injection H as -> ->. lia.
Qed.

Lemma cell_eqb_refl a : cell_eqb a a = true.
Proof. now apply cell_eqb_eq. Qed.

Lemma cell_eta p : p = Cell (row p) (col p).
Proof. now destruct p. Qed.

Ltac in_cases H :=
  repeat match type of H with
  | In _ (_ ++ _) => apply in_app_or in H; destruct H as [H|H]
  | In _ (if ?b then _ else _) => let E := fresh "E" in destruct b eqn:E; [|destruct H]
  | In _ (_ :: _) => destruct H as [H|H]
  | In _ [] => destruct H
  end.

Lemma get_neighbors_In m n p q : inside m n p ->
  (In q (get_neighbors m n p) <-> inside m n q /\ touches p q).
Proof.
  destruct p as [r c], q as [r' c']. intros [Hr Hc]. cbn in Hr, Hc.
  unfold get_neighbors, cell_is_valid. cbn [row col].
  replace ((0 <=? r) && (0 <=? c)) with true by lia.
  unfold inside, touches. cbn [row col]. split.
  - intros H. in_cases H; injection H as <- <-; lia.
  - intros H.
    assert (D : (r' = r - 1 \/ r' = r \/ r' = r + 1) /\ (c' = c - 1 \/ c' = c \/ c' = c + 1)) by lia.
    destruct D as [D1 D2]; destruct D1 as [D1|[D1|D1]], D2 as [D2|[D2|D2]]; subst r' c';
      destruct (0 <=? c - 1) eqn:E1, (c + 1 <? n) eqn:E2, (0 <=? r - 1) eqn:E3, (r + 1 <? m) eqn:E4;
      try lia; cbn [app In]; auto 10.
Qed.

Lemma get_neighbors_NoDup m n p : NoDup (get_neighbors m n p).
Proof.
  destruct p as [r c]. unfold get_neighbors. destruct (cell_is_valid _); [|constructor]. cbn [row col].
  destruct (0 <=? c - 1), (c + 1 <? n), (0 <=? r - 1), (r + 1 <? m); cbn [app];
    repeat (constructor; [cbn [In]; intros H;
      repeat (match type of H with _ \/ _ => destruct H as [H|H]; [injection H; lia|] end); exact H|]);
    constructor.
Qed.

Lemma get_neighbors_invalid m n p : cell_is_valid p = false -> get_neighbors m n p = [].
Proof. unfold get_neighbors. now intros ->. Qed.

Lemma get_neighbors_spec m n p : inside m n p ->
  NoDup (get_neighbors m n p) /\ forall q, In q (get_neighbors m n p) <-> inside m n q /\ touches p q.
Proof. intros H. split; [apply get_neighbors_NoDup|]. intros q. now apply get_neighbors_In. Qed.

Lemma is_adjacent_to_spec a b : is_adjacent_to a b = true <-> touches a b.
Proof.
  unfold is_adjacent_to, touches, cell_eqb.
  destruct ((row a =? row b) && (col a =? col b)) eqn:E; lia.
Qed.

Lemma touches_sym a b : touches a b <-> touches b a.
Proof. unfold touches. lia. Qed.

Lemma is_diagonal_to_spec a b : touches a b ->
  is_diagonal_to a b = true <-> Z.abs (row a - row b) = 1 /\ Z.abs (col a - col b) = 1.
Proof. unfold is_diagonal_to, touches. lia. Qed.

(** ** Storage *)
Definition gwf {T} (g : grid T) : Prop :=
  0 < rows g /\ 0 < columns g /\ length (data g) = Z.to_nat (rows g * columns g).

Lemma grid_new_wf {T} m n (v : T) g : grid_new m n v = Ok g -> gwf g /\ rows g = m /\ columns g = n.
Proof.
  unfold grid_new. destruct ((0 <? m) && (0 <? n)) eqn:E; [|discriminate].
  intros H. injection H as <-. unfold gwf. cbn. rewrite repeat_length. lia.
Qed.

Lemma index_range {T} (g : grid T) p : gwf g -> inside (rows g) (columns g) p ->
  0 <= grid_index g p < rows g * columns g.
Proof.
  intros (Hr & Hc & Hl) [Hpr Hpc]. unfold grid_index. split; [nia|].
  assert (row p * columns g <= (rows g - 1) * columns g) by nia. lia.
Qed.

Lemma index_inj {T} (g : grid T) p q : gwf g ->
  inside (rows g) (columns g) p -> inside (rows g) (columns g) q ->
  grid_index g p = grid_index g q -> p = q.
Proof.
  intros (Hr & Hc & Hl) [Hpr Hpc] [Hqr Hqc] H. unfold grid_index in H.
  assert (row p = row q) by nia.
  destruct p, q; cbn in *. subst. f_equal. lia.
Qed.

Lemma nth_error_vset {A} (v : list A) i a v' : vset v i a = Ok v' ->
  length v' = length v /\ nth_error v' i = Some a /\ forall j, j <> i -> nth_error v' j = nth_error v j.
Proof.
  unfold vset. destruct (Nat.ltb_spec i (length v)) as [Hi|]; [|discriminate].
  intros H. assert (Hv : v' = firstn i v ++ a :: skipn (S i) v) by congruence. clear H. subst v'.
  assert (Hfl : length (firstn i v) = i) by (rewrite firstn_length; lia).
  repeat split.
  - rewrite app_length, Hfl. cbn [length]. rewrite skipn_length. lia.
  - rewrite nth_error_app2 by lia. rewrite Hfl, Nat.sub_diag. reflexivity.
  - intros j Hj. destruct (Nat.lt_ge_cases j i) as [Hji|Hji].
    + rewrite nth_error_app1 by lia. rewrite <- (firstn_skipn i v) at 2.
      rewrite nth_error_app1 by lia. reflexivity.
    + rewrite nth_error_app2 by lia. rewrite Hfl.
      destruct (j - i)%nat as [|k] eqn:Ek; [lia|]. cbn [nth_error].
      rewrite <- (firstn_skipn (S i) v) at 2. rewrite nth_error_app2.
      * rewrite firstn_length. f_equal. lia.
      * rewrite firstn_length. lia.
Qed.

Lemma grid_set_spec {T} (g : grid T) p v : gwf g -> inside (rows g) (columns g) p ->
  exists g', grid_set g p v = Ok g' /\ gwf g' /\ rows g' = rows g /\ columns g' = columns g /\
    forall q, inside (rows g) (columns g) q ->
      grid_get g' q = if cell_eqb p q then Ok v else grid_get g q.
Proof.
  intros Hg Hp. pose proof (index_range g p Hg Hp) as Hi. unfold grid_set.
  replace (0 <=? grid_index g p) with true by lia.
  assert (Hl : (Z.to_nat (grid_index g p) < length (data g))%nat).
  { destruct Hg as (_ & _ & ->). lia. }
  destruct (vset (data g) (Z.to_nat (grid_index g p)) v) as [d| | |] eqn:E;
    try (unfold vset in E; destruct (Nat.ltb_spec (Z.to_nat (grid_index g p)) (length (data g))); [discriminate|lia]).
  cbn [bind]. eexists. split; [reflexivity|].
  apply nth_error_vset in E as (El & Es & En).
  assert (Hg' : gwf (Grid (rows g) (columns g) d)).
  { destruct Hg as (H1 & H2 & H3). repeat split; cbn; auto. now rewrite El. }
  repeat split; auto; try apply Hg'. intros q Hq.
  pose proof (index_range g q Hg Hq) as Hiq.
  unfold grid_get. change (grid_index (Grid (rows g) (columns g) d) q) with (grid_index g q).
  replace (0 <=? grid_index g q) with true by lia. cbn [data]. unfold vget.
  destruct (cell_eqb p q) eqn:Epq.
  - apply cell_eqb_eq in Epq. subst. now rewrite Es.
  - rewrite En; auto. intros Hc. assert (grid_index g q = grid_index g p) by lia.
    apply index_inj in H; auto. subst. now rewrite cell_eqb_refl in Epq.
Qed.

Lemma grid_get_ok {T} (g : grid T) p : gwf g -> inside (rows g) (columns g) p -> exists v, grid_get g p = Ok v.
Proof.
  intros Hg Hp. pose proof (index_range g p Hg Hp) as Hi. unfold grid_get.
  replace (0 <=? grid_index g p) with true by lia. unfold vget.
  destruct (nth_error (data g) (Z.to_nat (grid_index g p))) eqn:E; eauto.
  apply nth_error_None in E. destruct Hg as (_ & _ & Hl). lia.
Qed.

Lemma grid_new_get {T} m n (v : T) g p : grid_new m n v = Ok g -> inside m n p -> grid_get g p = Ok v.
Proof.
  intros Hn Hp. pose proof (grid_new_wf _ _ _ _ Hn) as (Hw & Hr & Hc).
  rewrite <- Hr, <- Hc in Hp. destruct (grid_get_ok g p Hw Hp) as [w Hw']. rewrite Hw'.
  unfold grid_new in Hn. destruct ((0 <? m) && (0 <? n)); [|discriminate]. injection Hn as <-.
  unfold grid_get, vget in Hw'. cbn [data] in Hw'. destruct (0 <=? _); [|discriminate].
  destruct (nth_error _ _) eqn:E; [|discriminate]. injection Hw' as <-.
  apply nth_error_In in E. apply repeat_spec in E. now subst.
Qed.

Lemma grid_writes_spec {T} ws : forall (g : grid T) p v0, gwf g ->
  Forall (fun w => inside (rows g) (columns g) (fst w)) ws ->
  inside (rows g) (columns g) p -> grid_get g p = Ok v0 ->
  exists g', grid_writes g ws = Ok g' /\ grid_get g' p = Ok (last_write v0 ws p).
Proof.
  induction ws as [|[q v] ws IH]; intros g p v0 Hg Hws Hp Hv0; cbn [grid_writes last_write].
  - eauto.
  - inversion Hws as [|? ? Hq Hws']; subst. cbn [fst] in Hq.
    destruct (grid_set_spec g q v Hg Hq) as (g' & Hs & Hg' & Hr & Hc & Hget).
    rewrite Hs. cbn [bind]. apply IH; auto.
    + rewrite Hr, Hc. auto.
    + rewrite Hr, Hc. auto.
    + rewrite Hget by auto. now destruct (cell_eqb q p).
Qed.

Lemma grid_storage m n {T} (v0 : T) g ws p : grid_new m n v0 = Ok g ->
  Forall (fun w => inside m n (fst w)) ws -> inside m n p ->
  exists g', grid_writes g ws = Ok g' /\ grid_get g' p = Ok (last_write v0 ws p).
Proof.
  intros Hn Hws Hp. pose proof (grid_new_wf _ _ _ _ Hn) as (Hw & Hr & Hc).
  apply grid_writes_spec; auto; rewrite ?Hr, ?Hc; auto. eapply grid_new_get; eauto.
Qed.

Lemma grid_address m n {T} (v0 : T) g p q : grid_new m n v0 = Ok g -> inside m n p -> inside m n q ->
  0 <= grid_index g p < m * n /\ (grid_index g p = grid_index g q -> p = q).
Proof.
  intros Hn Hp Hq. pose proof (grid_new_wf _ _ _ _ Hn) as (Hw & Hr & Hc). subst m n. split.
  - now apply index_range.
  - now apply index_inj.
Qed.

Lemma grid_new_iff {T} m n (v : T) : (exists g, grid_new m n v = Ok g) <-> 0 < m /\ 0 < n.
Proof.
  unfold grid_new. destruct ((0 <? m) && (0 <? n)) eqn:E; split; intros H; eauto; try lia.
  - destruct H as [g H]. discriminate.
Qed.
