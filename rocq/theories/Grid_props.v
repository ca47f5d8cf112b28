(** C16 and C17: grid neighbours and grid storage. *)
From Verif Require Import Base Grid_model Grid_spec Grid_proofs.
Open Scope Z_scope.

(** C16: neighbours are exactly the touching cells of the grid, each once. *)
Theorem C16_neighbors_exact :
  forall m n p, inside m n p ->
    NoDup (get_neighbors m n p) /\
    forall q, In q (get_neighbors m n p) <-> inside m n q /\ touches p q.
Proof. exact get_neighbors_spec. Qed.
Print Assumptions C16_neighbors_exact.

Theorem C16_adjacent_iff_touches : forall a b, is_adjacent_to a b = true <-> touches a b.
Proof. exact is_adjacent_to_spec. Qed.
Print Assumptions C16_adjacent_iff_touches.

Theorem C16_touches_symmetric : forall a b, touches a b <-> touches b a.
Proof. exact touches_sym. Qed.
Print Assumptions C16_touches_symmetric.

Theorem C16_diagonal : forall a b, touches a b ->
  is_diagonal_to a b = true <-> Z.abs (row a - row b) = 1 /\ Z.abs (col a - col b) = 1.
Proof. exact is_diagonal_to_spec. Qed.
Print Assumptions C16_diagonal.

Example C16_corner : inside 3 4 (Cell 0 3) /\
  get_neighbors 3 4 (Cell 0 3) = [Cell 0 2; Cell 1 2; Cell 1 3].
Proof. vm_compute. intuition congruence. Qed.

(** C17: a grid exists exactly for positive sizes; its addresses are in bounds and injective; reads
    return the last write. *)
Theorem C17_grid_exists : forall T m n (v : T), (exists g, grid_new m n v = Ok g) <-> 0 < m /\ 0 < n.
Proof. exact @grid_new_iff. Qed.
Print Assumptions C17_grid_exists.

Theorem C17_addresses_in_bounds_and_distinct :
  forall m n T (v0 : T) g p q, grid_new m n v0 = Ok g -> inside m n p -> inside m n q ->
    0 <= grid_index g p < m * n /\ (grid_index g p = grid_index g q -> p = q).
Proof. exact @grid_address. Qed.
Print Assumptions C17_addresses_in_bounds_and_distinct.

Theorem C17_read_last_write :
  forall m n T (v0 : T) g ws p, grid_new m n v0 = Ok g ->
    Forall (fun w => inside m n (fst w)) ws -> inside m n p ->
    exists g', grid_writes g ws = Ok g' /\ grid_get g' p = Ok (last_write v0 ws p).
Proof. exact @grid_storage. Qed.
Print Assumptions C17_read_last_write.

Example C17_case :
  (do g <- grid_new 2 3 0; do g' <- grid_writes g [(Cell 1 2, 7); (Cell 0 1, 8); (Cell 1 2, 9)];
   do a <- grid_get g' (Cell 1 2); do b <- grid_get g' (Cell 0 1); do c <- grid_get g' (Cell 1 1); Ok (a, b, c))
  = Ok (9, 8, 0).
Proof. reflexivity. Qed.
