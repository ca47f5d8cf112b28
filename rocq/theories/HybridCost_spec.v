(** The prices of the motions of Hybrid A*, as documented. *)
From Coq Require Import Reals.
From Verif Require Import Base RealBase Straight_model Bicycle_model Rs_model Rs_spec Hybrid_model.
Local Open Scope R_scope.

(** The price of a motion, hybrid_a_star.h:30-38, without that of the cells on the way and, between motions, of a change of direction: its
    length with the multiplier of its direction, or the documented cost of the Reeds-Shepp motions. *)
Definition priced (m : params) (p : drive_path) (k : R) : Prop :=
  match p with
  | Steered c => k = match c_direction c with Forward => hp_forward m | Backward => hp_reverse m | NoMotion => 0 end * c_length c
  | Connected q => exists l, holds_motions (q_segment q) l /\ l <> [] /\ k = documented_cost l (q_radius q) (hp_reverse m) (hp_forward m) (hp_switching m)
  end.
