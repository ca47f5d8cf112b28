(** Proofs about [ProcessPossibleShortcut] of Hybrid A*. *)
From Coq Require Import Reals Lra Lia.
From Verif Require Import Base RealBase Pose_model Straight_model Coords_model Frontier_model Frontier_spec Frontier_proofs AStar_model AStar_spec AStar_proofs Hybrid_model Hybrid_proofs HybridShort_spec.
From Coq Require Import ZifyBool ZifyNat ZifyN.
Local Open Scope R_scope.

Lemma guard_spec a b : h_guard a b = true <-> nearly_same (hs_pose a) (hs_pose b).
Proof.
  unfold h_guard, identical_poses, nearly_same, pnorm, psub, position. cbn [fst snd]. split.
  - intros H. apply andb_prop in H as [H1 H2]. destruct (Rltb_spec (sqrt ((px (hs_pose a) - px (hs_pose b)) * (px (hs_pose a) - px (hs_pose b)) + (py (hs_pose a) - py (hs_pose b)) * (py (hs_pose a) - py (hs_pose b)))) (1 / 1000)); [|discriminate]. destruct (Rltb_spec (Rabs (pth (hs_pose a) - pth (hs_pose b))) (1 / 1000 * PI / 180)); [|discriminate]. auto.
  - intros [H1 H2]. apply andb_true_intro. split; apply Rltb_true; assumption.
Qed.

Lemma neighbour hv (n : hnode) e fr cs a c : finv (n_cmp x_ltb (Some 0)) (n_eq hs_eqb) fr ->
  let cost := x_add (n_g (Some 0) n) c in let estimate := x_add cost (hv cs) in let child := Child cs a cost estimate n in
  exists fr', expand_one hs_eqb x_ltb x_add (Some 0) hv h_guard true n e fr (cs, a, c) = Ok fr' /\ finv (n_cmp x_ltb (Some 0)) (n_eq hs_eqb) fr' /\
  (forall y, In y (vec fr') -> In y (vec fr) \/ y = child) /\
  (forall y, In y (vec fr) -> In y (vec fr') \/ (hs_cell (n_state y) = hs_cell cs /\ nearly_same (hs_pose (n_state y)) (hs_pose cs) /\ x_ltb estimate (n_f (Some 0) y) = true)) /\
  (forall y, In y (vec fr) -> hs_cell (n_state y) = hs_cell cs -> nearly_same (hs_pose (n_state y)) (hs_pose cs) -> x_ltb estimate (n_f (Some 0) y) = true -> In child (vec fr') /\ ~ In y (vec fr')) /\
  ((forall y, In y (vec fr) \/ In y e -> hs_cell (n_state y) <> hs_cell cs) -> In child (vec fr')).
Proof.
  intros Hi cost estimate child. change (x_add cost (hv cs)) with estimate. pose proof (n_eq_equiv (A := drive_path) (C := xreal) hs_eqb hs_equiv) as NE.
  assert (EQ : forall y : hnode, n_eq hs_eqb child y = true <-> hs_cell (n_state y) = hs_cell cs). { intros y. unfold n_eq, hs_eqb. rewrite ipose_eqb_eq. cbn [child n_state]. split; congruence. }
  destruct (find (n_eq hs_eqb child) (vec fr)) as [fn|] eqn:Ef.
  - assert (E0 : expand_one hs_eqb x_ltb x_add (Some 0) hv h_guard true n e fr (cs, a, c) = expand_one hs_eqb x_ltb x_add (Some 0) hv h_guard true n [] fr (cs, a, c)).
    { unfold expand_one. change (Child cs a (x_add (n_g (Some 0) n) c) (x_add (x_add (n_g (Some 0) n) c) (hv cs)) n) with child. unfold f_find. rewrite (set_find_vec _ _ NE) by exact Hi. rewrite Ef. reflexivity. }
    rewrite E0. destruct (expand_one_upd hs_eqb x_ltb x_add (Some 0) hv h_guard true hs_equiv x_swo n [] fr (cs, a, c) Hi) as (fr' & E & Hi' & U).
    exists fr'. split; [exact E|]. split; [exact Hi'|]. apply find_some in Ef as Ef'. destruct Ef' as [I0 Q0].
    assert (UN : forall y, In y (vec fr) -> n_eq hs_eqb child y = true -> y = fn). { intros y I Q. pose proof (find_In_eq _ NE child y (vec fr) (proj1 (proj2 Hi)) I Q). congruence. }
    destruct U as [_ X _|fn' I1 Q1 G1 M|N1 _ M|fn' _ I1 Q1 G1 L1 _ M]; change (child_of x_add (Some 0) hv n (cs, a, c)) with child in *.
    + discriminate.
    + assert (fn' = fn) as -> by auto. split; [intros y; rewrite M; auto|]. split; [intros y; rewrite M; auto|]. split.
      * intros y I C G L. assert (y = fn) as -> by (apply UN; [exact I|apply EQ; exact C]). destruct (G1 eq_refl) as [X|X].
        -- assert (h_guard (n_state fn) (n_state child) = true) by (apply guard_spec; exact G). congruence.
        -- change (x_ltb estimate (n_f (Some 0) fn) = false) in X. rewrite X in L. discriminate.
      * intros N. exfalso. apply (N fn (or_introl I0)). apply EQ. exact Q0.
    + rewrite N1 in Q0 by exact I0. discriminate.
    + assert (fn' = fn) as -> by auto. split; [intros y; rewrite M; tauto|]. split.
      * intros y I. destruct (n_eq hs_eqb child y) eqn:Q; [|left; rewrite M; auto]. right. assert (y = fn) as -> by auto. split; [apply EQ; exact Q|]. split; [apply guard_spec in G1; exact G1|exact L1].
      * split; [|intros N; apply M; auto]. intros y I C G L. split; [apply M; auto|]. rewrite M. intros [Y|[_ Y]].
        -- subst y. change (x_ltb estimate estimate = true) in L. unfold x_ltb in L. destruct estimate as [r|]; [apply Rltb_true in L; lra|discriminate].
        -- apply EQ in C. congruence.
  - destruct (expand_one_upd hs_eqb x_ltb x_add (Some 0) hv h_guard true hs_equiv x_swo n e fr (cs, a, c) Hi) as (fr' & E & Hi' & U).
    exists fr'. split; [exact E|]. split; [exact Hi'|]. pose proof (find_none _ _ Ef) as NO.
    destruct U as [_ X M|fn' I1 Q1 G1 M|N1 _ M|fn' _ I1 Q1 G1 L1 _ M]; change (child_of x_add (Some 0) hv n (cs, a, c)) with child in *.
    + split; [intros y; rewrite M; auto|]. split; [intros y; rewrite M; auto|]. split; [intros y I C; apply EQ in C; rewrite NO in C by exact I; discriminate|].
      intros N. exfalso. unfold e_contains in X. apply existsb_exists in X as (y & I & Q). apply (N y (or_intror I)). apply EQ. apply (eqk_sym _ _ NE). exact Q.
    + rewrite NO in Q1 by exact I1. discriminate.
    + split; [intros y; rewrite M; tauto|]. split; [intros y I; left; apply M; auto|]. split; [intros y I C; apply EQ in C; rewrite NO in C by exact I; discriminate|]. intros _. apply M. auto.
    + rewrite NO in Q1 by exact I1. discriminate.
Qed.

(** ** A cheaper way that is not taken *)

(** Cells 0 to 3; the second component is the pose in the cell. *)
Definition detour (_ : unit) (s : nat * nat) : list (nat * nat * unit * Z) * unit :=
  (match fst s with
   | 0%nat => [((1, 0)%nat, tt, 10%Z); ((2, 0)%nat, tt, 1%Z)]
   | 2%nat => [((1, 1)%nat, tt, 1%Z)]
   | 1%nat => [((3, 0)%nat, tt, 1%Z)]
   | _ => []
   end, tt).
Definition same_cell (s t : nat * nat) : bool := Nat.eqb (fst s) (fst t).
Definition same_pose (s t : nat * nat) : bool := Nat.eqb (fst s) (fst t) && Nat.eqb (snd s) (snd t).
