(** The curves of Reeds and Shepp (Optimal paths for a car that goes both forwards and backwards, section 8): lists of motions of
    these shapes, whatever formula their lengths are found with. *)
From Coq Require Import Reals.
From Verif Require Import Base RealBase Pose_model Bicycle_model Bicycle_spec Rs_model Rs_spec.
Local Open Scope R_scope.

Definition half_turn (a : R) : Prop := 0 <= a < PI.
Definition full_turn (a : R) : Prop := 0 <= a < 2 * PI.

(** Starting with a left turn forward. In brackets, the equations of the paper. [Lf], [Rb], ... are motions to the left forward, to the right
    backward, and so on, [Sf] and [Sb] straight ones. *)
Inductive left_curve : list motion -> Prop :=
| curve_lsl t u v : half_turn t -> 0 <= u -> half_turn v -> left_curve [Lf t; Sf u; Lf v] (* 8.1 *)
| curve_lsr t u v : half_turn t -> 0 <= u -> half_turn v -> left_curve [Lf t; Sf u; Rf v] (* 8.2 *)
| curve_l_r_l t u v : 0 <= t <= PI -> 0 <= u <= PI -> 0 <= v <= PI -> left_curve [Lf t; Rb u; Lf v] (* 8.3 *)
| curve_l_rl t u v : full_turn t -> 0 <= u <= PI -> full_turn v -> left_curve [Lf t; Rb u; Lb v] (* 8.4 *)
| curve_lr_l t u v : full_turn t -> 0 <= u <= PI -> full_turn v -> left_curve [Lf t; Rf u; Lb v] (* 8.4, reversed *)
| curve_lr_lr t u v : full_turn t -> 0 <= u < PI / 3 -> full_turn v -> left_curve [Lf t; Rf u; Lb u; Rb v] (* 8.7 *)
| curve_l_rl_r t u v : full_turn t -> 0 <= u <= PI / 2 -> full_turn v -> left_curve [Lf t; Rb u; Lb u; Rf v] (* 8.8 *)
| curve_l_rsl t u v : full_turn t -> 0 <= u -> full_turn v -> left_curve [Lf t; Rb (PI / 2); Sb u; Lb v] (* 8.9 *)
| curve_l_rsr t u v : full_turn t -> 0 <= u -> full_turn v -> left_curve [Lf t; Rb (PI / 2); Sb u; Rb v] (* 8.10 *)
| curve_lsr_l t u v : full_turn t -> 0 <= u -> full_turn v -> left_curve [Lf t; Sf u; Rf (PI / 2); Lb v] (* 8.9, reversed *)
| curve_lsl_r t u v : full_turn t -> 0 <= u -> full_turn v -> left_curve [Lf t; Sf u; Lf (PI / 2); Rb v] (* 8.10, reversed *)
| curve_l_rsl_r t u v : full_turn t -> 0 <= u -> full_turn v -> left_curve [Lf t; Rb (PI / 2); Sb u; Lb (PI / 2); Rf v]. (* 8.11 *)

(** Forward and backward exchanged; left and right exchanged. *)
Definition other_gear (l : list motion) : list motion := map (fun m => Motion (m_steer m) (flip_dir (m_dir m)) (m_len m)) l.
Definition other_side (l : list motion) : list motion := map (fun m => Motion (flip_steer (m_steer m)) (m_dir m) (m_len m)) l.

Definition rs_curve (l : list motion) : Prop := exists b, left_curve b /\ (l = b \/ l = other_gear b \/ l = other_side b \/ l = other_side (other_gear b)).


(** All motions but the first and the last have a length. *)
Definition lasting (l : list motion) : Prop := forall m, In m (removelast (tl l)) -> 0 < m_len m.

(** A car and what it sees, scaled; both seen in a mirror (the axis of abscissas); both facing the other way. *)
Definition enlarged (s : R) (p : pose) : pose := Pose (s * px p) (s * py p) (pth p).
Definition about_face (p : pose) : pose := Pose (px p) (py p) (pth p + PI).
