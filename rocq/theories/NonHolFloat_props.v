(** Property C133, where the non-holonomic heuristic reads its table in double precision. *)
From Coq Require Import Reals ZArith Lra.
From Flocq Require Import Core BinarySingleNaN.
From Verif Require Import Base CoordsFloat_model AngleFloat_model StateValidFloat_model NonHolFloat_model NonHolFloat_spec NonHolFloat_proofs.
Local Open Scope R_scope.

(** The difference of goal and state: always defined, in the frame of the state up to rounding, with a wrapped heading. *)
Theorem C133_difference :
  forall fuel dsin dcos goal state size, (3 <= fuel)%nat -> good_rotations dsin dcos -> size <= bpow radix2 900 -> pose_within size goal -> pose_within size state ->
  exists delta, d_pose_sub fuel dsin dcos goal state = Ok delta /\ is_finite (d_x delta) = true /\ is_finite (d_y delta) = true /\ is_finite (d_theta delta) = true /\
    - B2R d_pi <= B2R (d_theta delta) <= B2R d_pi /\ seen_from (bpow radix2 (-48) * size + bpow radix2 (-1070)) goal state delta.
Proof. exact pose_difference. Qed.
Print Assumptions C133_difference.

(** Missing for the full statement: a difference of headings next to minus half an angular resolution and below. Otherwise the read is in the
    bounds, at a node next to the difference up to rounding, or there is none because a coordinate is past the table. The node of the heading
    may be one full turn ahead. *)
Theorem C133_in_bounds_partial :
  forall fuel dsin dcos t goal state delta, sensible t -> d_pose_sub fuel dsin dcos goal state = Ok delta -> difference t delta ->
  - (1 - bpow radix2 (-52)) * (B2R (dt_ang t) / 2) <= B2R (d_theta delta) ->
  exists v, d_lookup fuel dsin dcos t goal state = Ok v /\
    match v with
    | None => past (B2R (dt_offx t)) (B2R (dt_res t)) (B2R (d_x delta)) \/ past (B2R (dt_offy t)) (B2R (dt_res t)) (B2R (d_y delta))
    | Some (i, j, k) => (0 <= i < dt_numx t)%Z /\ (0 <= j < dt_numy t)%Z /\ (0 <= k < dt_numang t)%Z /\
        next_to i (B2R (dt_offx t)) (B2R (dt_res t)) (B2R (d_x delta)) /\ next_to j (B2R (dt_offy t)) (B2R (dt_res t)) (B2R (d_y delta)) /\
        exists k', (k' = k \/ k = 0%Z /\ k' = dt_numang t) /\ Rabs (IZR k' * B2R (dt_ang t) - B2R (d_theta delta)) <= B2R (dt_ang t) / 2 + slack (B2R (dt_ang t)) (Rabs (B2R (d_theta delta)))
    end.
Proof. intros fuel dsin dcos t goal state delta S E D H. unfold d_lookup. rewrite E. now apply entry_in_bounds. Qed.
Print Assumptions C133_in_bounds_partial.

(** Far beyond the table there is no read, whatever the heading. *)
Theorem C133_beyond :
  forall fuel dsin dcos t goal state delta, sensible t -> d_pose_sub fuel dsin dcos goal state = Ok delta -> difference t delta ->
  B2R (dt_offx t) + B2R (dt_res t) / 2 + slack (B2R (dt_res t)) (Rabs (B2R (d_x delta)) + B2R (dt_offx t)) < Rabs (B2R (d_x delta)) \/
  B2R (dt_offy t) + B2R (dt_res t) / 2 + slack (B2R (dt_res t)) (Rabs (B2R (d_y delta)) + B2R (dt_offy t)) < Rabs (B2R (d_y delta)) ->
  d_lookup fuel dsin dcos t goal state = Ok None.
Proof. intros fuel dsin dcos t goal state delta S E D H. unfold d_lookup. rewrite E. now apply entry_beyond. Qed.
Print Assumptions C133_beyond.

(** Refuted: for the headings at or below minus half an angular resolution, the read is out of the bounds. *)
Theorem C133_out_of_bounds :
  forall fuel dsin dcos t goal state delta, sensible t -> d_pose_sub fuel dsin dcos goal state = Ok delta -> difference t delta ->
  B2R (d_theta delta) <= - (B2R (dt_ang t) / 2) ->
  ~ past (B2R (dt_offx t)) (B2R (dt_res t)) (B2R (d_x delta)) -> ~ past (B2R (dt_offy t)) (B2R (dt_res t)) (B2R (d_y delta)) ->
  d_lookup fuel dsin dcos t goal state = UB.
Proof. intros fuel dsin dcos t goal state delta S E D H. unfold d_lookup. rewrite E. now apply entry_out_of_bounds. Qed.
Print Assumptions C133_out_of_bounds.

(** For example if the car only has to turn right. *)
Theorem C133_in_bounds_refuted :
  forall dsin dcos, good_rotations dsin dcos -> exists t goal state, sensible t /\ pose_within 0 goal /\ pose_within 0 state /\ d_lookup 3 dsin dcos t goal state = UB.
Proof.
  intros dsin dcos G. destruct (turn_right dsin dcos G) as (W0 & W1 & U). eexists plain_table, _, _. split; [exact plain_sensible|]. split; [exact W0|]. split; [exact W1|exact U].
Qed.
Print Assumptions C133_in_bounds_refuted.

(** A table of twenty metres: the entries of some differences; with a library whose sine is zero and whose cosine is one, as it is at heading zero. *)
Example C133_entries :
  let at_ x y h := d_lookup 3 (fun _ => d_of 0 0) (fun _ => d_of 1 0) plain_table (DPose x y h) (DPose (d_of 0 0) (d_of 0 0) (d_of 0 0)) in
  at_ (d_of 3 0) (d_of (-2) 0) (d_of 1 0) = Ok (Some (13, 8, 10))%Z /\ at_ (d_of 21 (-1)) (d_of 0 0) (d_of 0 0) = Ok None /\ at_ (d_of (-21) (-1)) (d_of 0 0) (d_of 0 0) = Ok None /\
  at_ (d_of (-41) (-2)) (d_of 5 (-1)) d_pi = Ok (Some (0, 13, 31))%Z /\ at_ (d_of 0 0) (d_of 0 0) (d_of (-1) (-5)) = Ok (Some (10, 10, 0))%Z /\
  at_ (d_of 0 0) (d_of 0 0) (d_of (-1) (-4)) = UB.
Proof. repeat split; vm_compute; reflexivity. Qed.

(** The table and its differences meet the conditions. *)
Example C133_sensible : sensible plain_table /\ difference plain_table (DPose (d_of 0 0) (d_of 0 0) (d_of 1 0)).
Proof.
  split; [exact plain_sensible|]. destruct plain_offset as (Ox & Oy & Er & _). destruct (CellFloat_proofs.int_double 0 ltac:(easy)) as [F0 E0]. destruct (CellFloat_proofs.int_double 1 ltac:(easy)) as [F1 E1].
  pose proof AngleFloat_proofs.pi_bounds as B. unfold AngleFloat_proofs.pi_ in B. change (bpow radix2 30) with 1073741824.
  constructor; cbn [d_x d_y d_theta]; rewrite ?Ox, ?Oy, ?Er, ?E0, ?E1, ?Rabs_R0; change (bpow radix2 30) with 1073741824; repeat split; auto; lra.
Qed.
