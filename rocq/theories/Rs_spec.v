(** What a user expects of Reeds-Shepp paths. *)
From Coq Require Import Reals.
From Verif Require Import Base RealBase Pose_model Bicycle_model Bicycle_spec Rs_model.
Local Open Scope R_scope.

(** A car of turning radius [radius] drives the signed length [s] (in units of the radius) from [p] with a fixed steering: the
    rear axle moves on a straight line, or on a circle of this radius to its left or to its right. *)
Definition driven (radius : R) (st : steer) (p : pose) (s : R) : pose :=
  match st with
  | SStraight => Pose (px p + radius * s * cos (pth p)) (py p + radius * s * sin (pth p)) (pth p)
  | SLeft => Pose (px p + radius * (sin (pth p + s) - sin (pth p))) (py p + radius * (cos (pth p) - cos (pth p + s))) (pth p + s)
  | SRight => Pose (px p + radius * (sin (pth p) - sin (pth p - s))) (py p + radius * (cos (pth p - s) - cos (pth p))) (pth p - s)
  end.

(** Curvature of a steering. *)
Definition curvature (radius : R) (st : steer) : R := match st with SStraight => 0 | SLeft => / radius | SRight => - / radius end.

(** The pose after all motions of a list. *)
Definition drive (radius : R) (l : list motion) (p : pose) : pose :=
  fold_left (fun p m => driven radius (m_steer m) p (signed (m_dir m) (m_len m))) l p.

(** The length of a list of motions, in units of the radius. *)
Fixpoint motions_length (l : list motion) : R := match l with [] => 0 | m :: r => m_len m + motions_length r end.

(** After the length [d], in units of the radius, the car is in the motion [m], and has driven the length [s] of it, after the motions [before]. *)
Definition reaches (l : list motion) (d : R) (before : list motion) (m : motion) (s : R) : Prop :=
  (exists after, l = before ++ m :: after) /\ 0 <= s <= m_len m /\ motions_length before + s = d.

(** Motions that a segment can hold: a direction and a length that is not negative. *)
Definition proper (m : motion) : Prop := m_dir m <> NoMotion /\ 0 <= m_len m.

(** Segment with these motions. *)
Definition holds_motions (g : rs_segment) (l : list motion) : Prop :=
  g_motions g = map Some l ++ repeat None (num_motion - length l) /\ (length l <= num_motion)%nat /\ g_length g = motions_length l /\
  Forall proper l.

(** Mirror images of a pose: driving backward instead of forward, and right instead of left. *)
Definition mirror_time (p : pose) : pose := Pose (- px p) (py p) (- pth p).
Definition mirror_side (p : pose) : pose := Pose (px p) (- py p) (- pth p).

(** Length driven in a direction, and number of changes of direction. *)
Fixpoint length_in (d : direction) (l : list motion) : R :=
  match l with [] => 0 | m :: r => (if dir_eqb (m_dir m) d then m_len m else 0) + length_in d r end.
Fixpoint switches (l : list motion) : nat :=
  match l with
  | m :: r => match r with m' :: _ => ((if dir_eqb (m_dir m) (m_dir m') then 0 else 1) + switches r)%nat | [] => 0%nat end
  | [] => 0%nat
  end.

(** The cost as documented, path_reeds_shepp.h:22-26: the lengths with their multipliers, and the cost of each change of direction. *)
Definition documented_cost (l : list motion) (radius reverse forward switching : R) : R :=
  forward * (length_in Forward l * radius) + reverse * (length_in Backward l * radius) + switching * INR (switches l).

(** The word [w] applies to a start and a goal, with these parameters. *)
Definition applies (start goal : pose) (radius : R) (w : nat) (t u v len : R) : Prop :=
  (w < num_words)%nat /\ motion_lengths w (goal_array start goal radius) = Lengths t u v len.

(** The path that the word [w] gives. *)
Definition offered (start goal : pose) (r : R) (w : nat) (g : rs_segment) : Prop := exists t u v len, applies start goal r w t u v len /\ get_path w t u v = Ok g.
