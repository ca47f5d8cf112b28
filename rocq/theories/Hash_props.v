(** C46: the contract between hashes and equality. *)
From Coq Require Import Reals.
From Verif Require Import Base RealBase Grid_model Hash_model Hash_proofs Pose_model.
Open Scope Z_scope.

(** C46, cells. *)
Theorem C46_cells : is_equivalence cell_eqb /\
  forall h a b, cell_eqb a b = true -> hash_cell h a = hash_cell h b.
Proof. split; [exact cell_equivalence|exact hash_cell_ok]. Qed.
Print Assumptions C46_cells.

(** C46, points, poses and planner states over any number type whose [==] is an equivalence (no NaN) that its
    std::hash and WrapTheta respect. *)
Theorem C46_points_poses_states :
  forall (T : Type) (eqb : T -> T -> bool) (h : T -> Z) (wrap : T -> T), is_equivalence eqb ->
    (forall a b, eqb a b = true -> h a = h b) -> (forall a b, eqb a b = true -> eqb (wrap a) (wrap b) = true) ->
    (is_equivalence (equal_point eqb) /\ forall a b, equal_point eqb a b = true -> hash_point h a = hash_point h b) /\
    (is_equivalence (equal_pose eqb wrap) /\ forall a b, equal_pose eqb wrap a b = true -> hash_pose h wrap a = hash_pose h wrap b) /\
    (is_equivalence (equal_state eqb) /\ forall a b, equal_state eqb a b = true -> hash_state h wrap a = hash_state h wrap b).
Proof.
  intros T eqb h wrap Heq Hh Hw. split; [|split].
  - split; [now apply point_equivalence|now apply hash_point_ok].
  - split; [now apply pose_equivalence|now apply hash_pose_ok].
  - split; [now apply state_equivalence|now apply hash_state_ok].
Qed.
Print Assumptions C46_points_poses_states.

(** Hashes stay in the range of [size_t]. *)
Theorem C46_hash_words : (forall h c, word (hash_cell h c)) /\
  forall (T : Type) (h : T -> Z) wrap p, word (hash_pose h wrap p).
Proof. split; [exact hash_cell_word|exact @hash_pose_word]. Qed.
Print Assumptions C46_hash_words.

(** The hypotheses are met by the integers with a hash that separates them, and by the reals with WrapTheta. *)
Example C46_integers : is_equivalence Z.eqb /\ (forall a b, Z.eqb a b = true -> wrap64 a = wrap64 b).
Proof.
  split; [|intros a b H; apply Z.eqb_eq in H; now subst].
  split; [exact Z.eqb_refl|]. split; intros a b; [|intros c]; rewrite !Z.eqb_eq; congruence.
Qed.
Example C46_reals : is_equivalence Reqb /\ (forall a b, Reqb a b = true -> Reqb (wrap_theta a) (wrap_theta b) = true).
Proof.
  split; [|intros a b; rewrite !Reqb_true; now intros ->].
  split; [intros a; now apply Reqb_true|]. split; intros a b; [|intros c]; rewrite !Reqb_true; congruence.
Qed.
Example C46_hash_value : hash_cell wrap64 (Cell 1 2) <> hash_cell wrap64 (Cell 2 1).
Proof. vm_compute. discriminate. Qed.
