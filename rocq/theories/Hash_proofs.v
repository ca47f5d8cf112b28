From Verif Require Import Base Grid_model Grid_proofs Hash_model.
Open Scope Z_scope.

Definition is_equivalence {K} (eqb : K -> K -> bool) : Prop :=
  (forall a, eqb a a = true) /\ (forall a b, eqb a b = true -> eqb b a = true) /\
  (forall a b c, eqb a b = true -> eqb b c = true -> eqb a c = true).

Lemma cell_equivalence : is_equivalence cell_eqb.
Proof.
  split; [exact cell_eqb_refl|]. split; intros a b; [|intros c]; rewrite !cell_eqb_eq; congruence.
Qed.
Lemma hash_cell_ok h a b : cell_eqb a b = true -> hash_cell h a = hash_cell h b.
Proof. rewrite cell_eqb_eq. now intros ->. Qed.

Section Numbers.
  Context {T : Type} (eqb : T -> T -> bool) (h : T -> Z) (wrap : T -> T).
  Context (Heq : is_equivalence eqb) (Hh : forall a b, eqb a b = true -> h a = h b).
  Context (Hw : forall a b, eqb a b = true -> eqb (wrap a) (wrap b) = true).

  Lemma point_equivalence : is_equivalence (equal_point eqb).
  Proof.
    destruct Heq as (R & S & Tr). unfold equal_point. split; [|split].
    - intros a. now rewrite !R.
    - intros a b. rewrite !andb_true_iff. intros [H1 H2]. auto.
    - intros a b c. rewrite !andb_true_iff. intros [H1 H2] [H3 H4]. eauto.
  Qed.
  Lemma hash_point_ok a b : equal_point eqb a b = true -> hash_point h a = hash_point h b.
  Proof. unfold equal_point, hash_point, hash2. rewrite andb_true_iff. intros [H1 H2]. now rewrite (Hh _ _ H1), (Hh _ _ H2). Qed.

  Lemma pose_equivalence : is_equivalence (equal_pose eqb wrap).
  Proof.
    destruct Heq as (R & S & Tr). destruct point_equivalence as (R' & S' & Tr'). unfold equal_pose. split; [|split].
    - intros a. now rewrite R, R'.
    - intros a b. rewrite !andb_true_iff. intros [H1 H2]. auto.
    - intros a b c. rewrite !andb_true_iff. intros [H1 H2] [H3 H4]. eauto.
  Qed.
  Lemma hash_pose_ok a b : equal_pose eqb wrap a b = true -> hash_pose h wrap a = hash_pose h wrap b.
  Proof. unfold equal_pose, hash_pose. rewrite andb_true_iff. intros [H1 H2]. now rewrite (hash_point_ok _ _ H1), (Hh _ _ H2). Qed.

  Lemma state_equivalence : is_equivalence (equal_state eqb).
  Proof.
    destruct Heq as (R & S & Tr). destruct point_equivalence as (R' & S' & Tr'). unfold equal_state, eq_pose. split; [|split].
    - intros a. now rewrite R, R'.
    - intros a b. rewrite !andb_true_iff. intros [H1 H2]. auto.
    - intros a b c. rewrite !andb_true_iff. intros [H1 H2] [H3 H4]. eauto.
  Qed.
  Lemma hash_state_ok a b : equal_state eqb a b = true -> hash_state h wrap a = hash_state h wrap b.
  Proof.
    unfold equal_state, eq_pose, hash_state, hash_pose. rewrite andb_true_iff. intros [H1 H2].
    now rewrite (hash_point_ok _ _ H1), (Hh _ _ (Hw _ _ H2)).
  Qed.
End Numbers.

(** Hashes are machine words if those of numbers are. *)
Definition word (x : Z) : Prop := 0 <= x < 2 ^ 64.
Lemma word_lxor a b : word a -> word b -> word (Z.lxor a b).
Proof.
  intros Ha Hb. unfold word in *. assert (H0 : 0 <= Z.lxor a b) by (apply Z.lxor_nonneg; lia). split; [exact H0|].
  destruct (Z.eq_dec (Z.lxor a b) 0) as [E|E]; [rewrite E; lia|].
  apply Z.log2_lt_pow2; [lia|]. pose proof (Z.log2_lxor a b ltac:(lia) ltac:(lia)) as H.
  assert (La : forall x, 0 <= x < 2 ^ 64 -> Z.log2 x < 64).
  { intros x Hx. destruct (Z.eq_dec x 0) as [->|]; [cbn; lia|]. apply Z.log2_lt_pow2; lia. }
  pose proof (La a Ha). pose proof (La b Hb). lia.
Qed.
Lemma hash_combine_word seed hv : word seed -> word (hash_combine seed hv).
Proof. intros H. apply word_lxor; auto. unfold word, wrap64. apply Z.mod_pos_bound. lia. Qed.
Lemma hash_pose_word {T} (h : T -> Z) wrap p : word (hash_pose h wrap p).
Proof. apply hash_combine_word, hash_combine_word. unfold word. lia. Qed.
Lemma hash_cell_word h c : word (hash_cell h c).
Proof. apply hash_combine_word, hash_combine_word. unfold word. lia. Qed.
