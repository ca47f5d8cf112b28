(** C132: the search cells of Hybrid A* in double precision. *)
From Coq Require Import Reals ZArith Lra Lia.
From Flocq Require Import Core BinarySingleNaN.
From Verif Require Import Base RealBase CoordsFloat_model CoordsFloat_proofs StraightFloat_model StraightFloat_proofs AngleFloat_model AngleFloat_proofs StateValidFloat_model Hybrid_model
  HybridCell_proofs SteeringFloat_spec CellFloat_model CellFloat_spec CellFloat_proofs.
Local Open Scope R_scope.

(** Refuted: the position 0.5 is in the cell 5 of size 0.1, although the double 0.1 is above a tenth and five of them are more than 0.5. *)
Definition tenth : double := d_of 7205759403792794 (-56).
Theorem C132_exact_refuted :
  let p := DPose (d_of 1 (-1)) (d_of 0 0) (d_of 0 0) in
  exists c, d_cell 1 tenth tenth p = Ok c /\ ix c = 5%Z /\ Rtrunc (B2R (d_x p) / B2R tenth) = 4%Z.
Proof.
  intros p. exists (IPose 5 0 0). split; [vm_compute; reflexivity|]. split; [reflexivity|]. apply trunc_down; unfold p; cbn [d_x].
  - change (0 <= F2R (Float radix2 4503599627370496 (-53)) / F2R (Float radix2 7205759403792794 (-56))). unfold F2R. cbn [Fnum Fexp].
    change (bpow radix2 (-53)) with (/ 9007199254740992). change (bpow radix2 (-56)) with (/ 72057594037927936). lra.
  - change (4 <= F2R (Float radix2 4503599627370496 (-53)) / F2R (Float radix2 7205759403792794 (-56)) < 4 + 1). unfold F2R. cbn [Fnum Fexp].
    change (bpow radix2 (-53)) with (/ 9007199254740992). change (bpow radix2 (-56)) with (/ 72057594037927936). lra.
Qed.
Print Assumptions C132_exact_refuted.

(** Refuted: the conversion to int is undefined for a position of 2^31 cells, and for a position that is not a number. *)
Theorem C132_defined_refuted :
  d_cell 1 d_one d_one (DPose (d_of 2147483648 0) (d_of 0 0) (d_of 0 0)) = UB /\ d_cell 1 d_one d_one (DPose B754_nan (d_of 0 0) (d_of 0 0)) = UB.
Proof. split; vm_compute; reflexivity. Qed.
Print Assumptions C132_defined_refuted.

(** What holds, for poses within 2^30 cells of the origin and headings of at most one and a half turns: there is a cell, its coordinates
    are the whole units in those of the pose, up to one rounding, and its heading is that of C52 for the whole units in the wrapped heading,
    up to one rounding. The loops end if the fuel exceeds 2^30. *)
Theorem C132_cell_partial : forall fuel (spatial angular : double) p, 0 < B2R spatial -> 0 < B2R angular -> numbers p ->
  Rabs (B2R (d_x p)) <= bpow radix2 30 * B2R spatial -> Rabs (B2R (d_y p)) <= bpow radix2 30 * B2R spatial ->
  Rabs (B2R (d_theta p)) <= 3 * B2R d_pi -> B2R d_pi <= bpow radix2 30 * B2R angular -> (2 ^ 30 < Z.of_nat fuel)%Z ->
  exists i j k w t, d_cell fuel spatial angular p = Ok (IPose i j (int_wrap t)) /\ units_of i (B2R spatial) (B2R (d_x p)) /\ units_of j (B2R spatial) (B2R (d_y p)) /\
    (Z.abs k <= 1)%Z /\ w = B2R (d_theta p) - IZR k * (2 * B2R d_pi) /\ - B2R d_pi <= w <= B2R d_pi /\ units_of t (B2R angular) w.
Proof. exact cell_spec. Qed.
Print Assumptions C132_cell_partial.

(** Poses in one cell differ by at most two units in each coordinate, and by at most one on the same side of the axis, up to rounding. *)
Theorem C132_same_cell_partial : forall fuel (spatial angular : double) a b c, 0 < B2R spatial ->
  d_cell fuel spatial angular a = Ok c -> d_cell fuel spatial angular b = Ok c -> numbers a -> numbers b ->
  Rabs (B2R (d_x a)) <= bpow radix2 900 * B2R spatial -> Rabs (B2R (d_y a)) <= bpow radix2 900 * B2R spatial ->
  Rabs (B2R (d_x b)) <= bpow radix2 900 * B2R spatial -> Rabs (B2R (d_y b)) <= bpow radix2 900 * B2R spatial ->
  forall f, f = d_x \/ f = d_y -> let x := B2R (f a) in let y := B2R (f b) in
  let e := bpow radix2 (-53) * (Rabs x + Rabs y) + bpow radix2 (-1074) * B2R spatial in
  Rabs (x - y) <= 2 * B2R spatial + e /\ (0 <= x * y -> Rabs (x - y) <= B2R spatial + e).
Proof. exact same_cell. Qed.
Print Assumptions C132_same_cell_partial.

(** Non-vacuity: (1.25, -0.75) with heading 4 is in the cell (12, -7) of size 0.1 and, with an angular resolution of one, in the heading cell -2; so is (1.28125, -0.71875). *)
Example C132_cell :
  d_cell 10 tenth d_one (DPose (d_of 5 (-2)) (d_of (-3) (-2)) (d_of 4 0)) = Ok (IPose 12 (-7) (-2)) /\
  d_cell 10 tenth d_one (DPose (d_of 41 (-5)) (d_of (-23) (-5)) (d_of 4 0)) = Ok (IPose 12 (-7) (-2)).
Proof. split; vm_compute; reflexivity. Qed.
Example C132_hypotheses : let p := DPose (d_of 3 0) (d_of 3 0) (d_of 2 0) in
  0 < B2R tenth /\ numbers p /\ Rabs (B2R (d_x p)) <= bpow radix2 30 * B2R tenth /\ Rabs (B2R (d_theta p)) <= 3 * B2R d_pi /\ B2R d_pi <= bpow radix2 30 * B2R tenth.
Proof.
  intros p. pose proof pi_bounds as P. fold pi_. assert (E : B2R tenth = 7205759403792794 / 72057594037927936).
  { change (F2R (Float radix2 7205759403792794 (-56)) = 7205759403792794 / 72057594037927936). unfold F2R. cbn [Fnum Fexp]. change (bpow radix2 (-56)) with (/ 72057594037927936). lra. }
  rewrite E. change (bpow radix2 30) with 1073741824. cbn [p d_x d_theta]. rewrite three_real, two_real, !Rabs_pos_eq by lra. repeat split; lra.
Qed.
