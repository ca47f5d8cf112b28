(** Specification vocabulary for Hybrid A*. *)
From Coq Require Import Reals.
From Verif Require Import Base RealBase Pose_model Pose_spec Straight_model Straight_spec Bicycle_model Composite_spec Rs_model Validator_model Hybrid_model.
Local Open Scope R_scope.

(** The headings differ by less than [d], on the circle. *)
Definition heading_within (d a b : R) : Prop := exists k, Rabs (a - b + 2 * PI * IZR k) < d.

(** As documented, hybrid_a_star.h:68-71. *)
Definition close (m : params) (a b : pose) : Prop :=
  Rabs (px a - px b) < hp_res m /\ Rabs (py a - py b) < hp_res m /\ heading_within (hp_ang m) (pth a) (pth b).

(** Within the tolerance of the goal. *)
Definition arrived (p goal : pose) : Prop :=
  distance (position p) (position goal) < 1 / 1000 /\ Rabs (pth p - pth goal) < 1 / 1000 * (PI / 180).

(** The validator accepts the path, or the path is the part that it reports as valid of one that it does not accept. *)
Definition accepted (validate : path -> res (bool * R)) (p : drive_path) : Prop :=
  (exists r, validate (as_path p) = Ok (true, r)) \/
  (exists p0 r, validate (as_path p0) = Ok (false, r) /\ p = dp_truncate p0 r).

(** Starting from [p], the motions lead to [q], without jumps. *)
Fixpoint leads (p : pose) (l : list drive_path) (q : pose) : Prop :=
  match l with
  | [] => p = q
  | x :: r => same_pose (dp_at x 0) p /\ leads (dp_at x 1) r q
  end.

(** A motion of the bicycle with constant steering, or a Reeds-Shepp path to the goal. *)
Definition driveable (m : params) (goal : pose) (p : drive_path) : Prop :=
  match p with
  | Steered c => c_model c = hp_model m /\ In (c_steering c) (deltas m) /\ (c_direction c = Forward \/ c_direction c = Backward)
  | Connected q =>
      q_radius q = hp_radius m /\ same_pose (q_final q) goal /\
      exists g, optimal_path (q_init q) goal (hp_radius m) (hp_reverse m) (hp_forward m) (hp_switching m) = Ok g /\ q = rs_new (q_init q) g (hp_radius m)
  end.

(** The length of the motions, and the poses after driving the length [d]. *)
Notation dtotal := (Composite_spec.total drive_path dp_length).
Definition on_way (l : list drive_path) (d : R) (x : pose) : Prop := exists p s, arrives drive_path dp_length l d p s /\ x = dp_at p s.
