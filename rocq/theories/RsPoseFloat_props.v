(** Property C136, the poses along Reeds-Shepp paths in double precision. *)
From Coq Require Import Reals ZArith Lra Lia.
From Flocq Require Import Core BinarySingleNaN.
From Verif Require Import Base CoordsFloat_model AngleFloat_model StateValidFloat_model Bicycle_model SteeringFloat_proofs NonHolFloat_spec CompositeFloat_spec RsFloat_model RsFloat_spec RsPoseFloat_model RsPoseFloat_spec RsPoseFloat_proofs.
Local Open Scope R_scope.

(** The pose at a ratio is where driving the motions leads, up to rounding, after a distance that is right up to rounding. *)
Theorem C136_poses :
  forall dsin dcos fuel K radius l init r, good_rotations dsin dcos -> (3 <= fuel)%nat -> usable radius l -> RsPoseFloat_spec.sized K radius l init -> pose_within K init -> is_ratio r ->
  let L := B2R (d_rs_length radius l) in let R := B2R radius in
  exists p', d_rs_pose dsin dcos fuel radius l init r = Ok p' /\ - B2R d_pi <= B2R (d_theta p') <= B2R d_pi /\
  ((exists before m after t, l = before ++ m :: after /\ 0 <= t <= B2R (dm_len m) /\ Rabs (driven radius before + t * R - B2R r * L) <= bpow radix2 (-40) * K /\
      near (bpow radix2 (-41) * K) (bpow radix2 (-45)) p' (advance R (dm_steer m) (dm_dir m) t (advance_all R before (coordinates init)))) \/
   (Rabs (driven radius l - B2R r * L) <= bpow radix2 (-40) * K /\ near (bpow radix2 (-41) * K) (bpow radix2 (-45)) p' (advance_all R l (coordinates init)))).
Proof. intros dsin dcos fuel K radius l init r G Hf U S I0 Hr. exact (posed dsin dcos G fuel Hf K radius l init U S I0 r Hr). Qed.
Print Assumptions C136_poses.

(** The final state is the end of the motions, up to rounding; a place that is wrong by a short way has a heading that is wrong by this way over the radius. *)
Theorem C136_end :
  forall dsin dcos fuel K radius l init, good_rotations dsin dcos -> (3 <= fuel)%nat -> usable radius l -> RsPoseFloat_spec.sized K radius l init -> pose_within K init ->
  exists p', d_rs_final (res d_pose) (d_rs_move dsin dcos fuel radius) radius l (Ok init) = Ok p' /\
    near (bpow radix2 (-37) * K) (bpow radix2 (-45) + bpow radix2 (-39) * (K / B2R radius)) p' (advance_all (B2R radius) l (coordinates init)).
Proof. exact ended. Qed.
Print Assumptions C136_end.

(** Left, straight on and back to the right, with the radius three, from the pose (1, -2) with the heading 3. *)
Definition three_point : list d_motion := [DMotion SLeft Forward (d_of 1 0); DMotion SStraight Forward (d_of 2 0); DMotion SRight Backward (d_of 1 0)].
Definition corner : d_pose := DPose (d_of 1 0) (d_of (-2) 0) (d_of 3 0).
Example C136_sized : good_rotations (fun x => rounded (sin (B2R x))) (fun x => rounded (cos (B2R x))) /\ usable (d_of 3 0) three_point /\ RsPoseFloat_spec.sized 32 (d_of 3 0) three_point corner /\ pose_within 32 corner.
Proof.
  split; [exact rounded_rotations|]. destruct (CellFloat_proofs.int_double 1 ltac:(easy)) as [F1 E1]. destruct (CellFloat_proofs.int_double 2 ltac:(easy)) as [F2 E2]. destruct (CellFloat_proofs.int_double 3 ltac:(easy)) as [F3 E3]. destruct (CellFloat_proofs.int_double (-2) ltac:(easy)) as [F4 E4].
  assert (P9 : bpow radix2 (-900) <= 1) by (change 1 with (bpow radix2 0); apply bpow_le; lia). assert (P4 : 32 <= bpow radix2 400) by (change 32 with (bpow radix2 5); apply bpow_le; lia).
  pose proof AngleFloat_proofs.pi_bounds as B. unfold AngleFloat_proofs.pi_ in B. split; [|split].
  - split; [exact F3|]. rewrite E3. split; [lra|]. split; [cbn; lia|]. intros m [<- |[<- |[<- |[]]]]; cbn [dm_len dm_dir]; rewrite ?E1, ?E2; (split; [assumption|split; [lra|discriminate]]).
  - unfold RsPoseFloat_spec.sized. cbn [three_point driven dm_len corner d_x d_y]. rewrite E1, E2, E3, E4. rewrite (Rabs_pos_eq 1) by lra. rewrite (Rabs_left (-2)) by lra. split; [lra|]. split; [lra|]. split; [lra|]. split; [lra|].
    intros m [<- |[<- |[<- |[]]]] _; cbn [dm_len]; rewrite ?E1, ?E2; lra.
  - unfold pose_within. cbn [corner d_x d_y d_theta]. rewrite E1, E3, E4. rewrite (Rabs_pos_eq 1) by lra. rewrite (Rabs_left (-2)) by lra. repeat split; auto; lra.
Qed.
(** With a sine that is always zero and a cosine that is always one: half of six straight on, at (4, -2). *)
Example C136_half : match d_rs_pose (fun _ => d_of 0 0) (fun _ => d_of 1 0) 3 (d_of 3 0) [DMotion SStraight Forward (d_of 2 0)] (DPose (d_of 1 0) (d_of (-2) 0) (d_of 0 0)) (d_of 1 (-1)) with
  | Ok p => Beqb (d_x p) (d_of 4 0) && Beqb (d_y p) (d_of (-2) 0) && Beqb (d_theta p) (d_of 0 0) | _ => false end = true.
Proof. vm_compute. reflexivity. Qed.
